(** The line parser and the grammar of CgdGrammar.v. *)
From Coq Require Import String Ascii List ZArith NArith Lia Bool PeanoNat QArith Qcanon.
From Verif Require Import Base Scalars ZQ Text ParseOp OpGrammar OpParse Cgd CgdGrammar.
Import ListNotations.
Close Scope Q_scope. Close Scope Qc_scope.
Local Open Scope list_scope.
Open Scope nat_scope.

Lemma unsigned_is_integer : unsigned_integer = integer_p. Proof. reflexivity. Qed.
Lemma digits_value_eq ds : digits_value ds = value ds. Proof. reflexivity. Qed.
Lemma digit1_cases i : (exists ds r, digit1 i = POk r ds /\ i = ds ++ r /\ ds <> [] /\ forallb is_digit ds = true /\ starts is_digit r = false) \/ (digit1 i = PError /\ starts is_digit i = false).
Proof.
  unfold digit1. destruct (span_spec is_digit i) as (E & H & F & S). rewrite E. destruct (fst (span is_digit i)) as [|c ds] eqn:D.
  - right. split; auto. rewrite H. cbn [app]. auto.
  - left. exists (c :: ds), (snd (span is_digit i)). splits; auto. discriminate.
Qed.
Lemma numeral_of ds : ds <> [] -> forallb is_digit ds = true -> numeral ds (digits_value ds).
Proof. intros N F. apply numeral_value. auto. Qed.

(** ** fractions *)
Lemma not_minus_digit i : starts is_digit i = true -> char_ (chr "-") i = PError.
Proof.
  destruct i as [|c i]; [discriminate|]. cbn [starts char_]. intros H. destruct (N.eqb_spec c (chr "-")) as [->|]; auto. discriminate H.
Qed.
Lemma integer_s_cases i : (exists r n s a m, integer_s i = POk r n /\ i = s ++ a ++ r /\ numeral a m /\ short a /\ ((s = [] /\ n = m) \/ (s = [chr "-"] /\ n = (- m)%Z)) /\ starts is_digit r = false) \/ integer_s i = PError.
Proof.
  unfold integer_s, alt, map_opt, preceded. rewrite unsigned_is_integer. destruct (integer_cases i) as [(r & n & E)|E]; rewrite E; cbn [pbind].
  - apply integer_sound in E as (a & -> & H & L & S). left. exists r, n, [], a, n. splits; auto.
  - destruct (char_cases (chr "-") i) as [(r & -> & ->)|(_ & ->)]; cbn [pbind]; auto. destruct (integer_cases r) as [(r1 & n & E2)|E2]; rewrite E2; cbn [pbind]; auto.
    apply integer_sound in E2 as (a & -> & H & L & S). left. exists r1, (- n)%Z, [chr "-"], a, n. splits; auto.
Qed.
Lemma fraction_p_cases i : (exists r q t, fraction_p i = POk r q /\ i = t ++ r /\ quotient_text t q) \/ fraction_p i = PError \/ (fraction_p i = PPanic /\ zero_quotient i).
Proof.
  unfold fraction_p, map_out, separated_pair. destruct (integer_s_cases i) as [(r & n & s & a & m & E & Ei & Ha & La & Hs & _)|E]; rewrite E; cbn [pbind]; auto.
  destruct (char_cases (chr "/") r) as [(r1 & -> & ->)|(_ & ->)]; cbn [pbind]; auto. rewrite unsigned_is_integer. destruct (integer_cases r1) as [(r2 & d & E2)|E2]; rewrite E2; cbn [pbind]; auto.
  apply integer_sound in E2 as (b & -> & Hb & Lb & _). cbn [fst snd]. unfold ratio_new. destruct (Z.eqb_spec d 0) as [->|N]; cbn [omap bind].
  - right; right. split; auto. exists s, a, m, b, r2. splits; auto.
  - left. exists r2, (ZQ n / ZQ d)%Qc, (s ++ a ++ [chr "/"] ++ b). splits; auto; [rewrite Ei, <- !app_assoc; reflexivity|]. destruct Hs as [[-> ->]|[-> ->]]; [apply quotient_plus; auto|apply quotient_minus; auto].
Qed.
Lemma fraction_p_complete t q r : quotient_text t q -> starts is_digit r = false -> fraction_p (t ++ r) = POk r q.
Proof.
  intros H Sr. unfold fraction_p, map_out, separated_pair, integer_s, alt, map_opt, preceded. rewrite unsigned_is_integer.
  destruct H as [a n b m Ha La Hb Lb Hm|a n b m Ha La Hb Lb Hm].
  - replace ((a ++ [chr "/"] ++ b) ++ r) with (a ++ (chr "/" :: (b ++ r))) by (rewrite <- !app_assoc; reflexivity).
    rewrite (integer_complete a n) by auto. cbn [pbind]. unfold char_ at 1. rewrite N.eqb_refl. cbn [pbind]. rewrite (integer_complete b m) by auto. cbn [pbind fst snd]. unfold ratio_new. destruct (Z.eqb_spec m 0); [congruence|]. reflexivity.
  - replace (([chr "-"] ++ a ++ [chr "/"] ++ b) ++ r) with (chr "-" :: (a ++ (chr "/" :: (b ++ r)))) by (cbn [app]; rewrite <- !app_assoc; reflexivity).
    rewrite integer_error by reflexivity. cbn [pbind]. change (char_ (chr "-") (chr "-" :: a ++ chr "/" :: b ++ r)) with (POk (a ++ chr "/" :: b ++ r) (chr "-")). cbn [pbind].
    rewrite (integer_complete a n) by auto. cbn [pbind]. unfold char_ at 1. rewrite N.eqb_refl. cbn [pbind]. rewrite (integer_complete b m) by auto. cbn [pbind fst snd]. unfold ratio_new. destruct (Z.eqb_spec m 0); [congruence|]. reflexivity.
Qed.

(** ** numbers *)
Definition dot : N := chr ".".
Lemma mantissa_cases i : (exists r a f m, mantissa_p i = POk r (a, f) /\ i = m ++ r /\ mantissa_text m (digits_value (a ++ f)) (length f)) \/
  (mantissa_p i = PError /\ starts is_digit i = false /\ forall r, i = dot :: r -> starts is_digit r = false).
Proof.
  unfold mantissa_p, alt, map_opt, pair_, preceded, opt. destruct (digit1_cases i) as [(a & r & -> & -> & N & F & S)|[-> S]]; cbn [pbind].
  - left. destruct (char_cases (chr ".") r) as [(r1 & -> & ->)|(_ & ->)]; cbn [pbind].
    + destruct (digit1_cases r1) as [(f & r2 & -> & -> & N2 & F2 & S2)|[-> S2]]; cbn [pbind fst snd].
      * exists r2, a, f, (a ++ [chr "."] ++ f). splits; auto; [rewrite <- !app_assoc; reflexivity|]. apply mantissa_decimals; auto. apply numeral_of; [destruct a; [congruence|discriminate]|rewrite forallb_app, F, F2; auto].
      * exists r1, a, [], (a ++ [chr "."]). rewrite app_nil_r. splits; auto; [rewrite <- !app_assoc; reflexivity|]. apply mantissa_point. apply numeral_of; auto.
    + cbn [fst snd]. exists r, a, [], a. rewrite app_nil_r. splits; auto. apply mantissa_whole. apply numeral_of; auto.
  - destruct (char_cases (chr ".") i) as [(r1 & -> & ->)|(S2 & ->)]; cbn [pbind].
    + destruct (digit1_cases r1) as [(f & r2 & -> & -> & N2 & F2 & S2)|[-> S2]]; cbn [pbind].
      * left. exists r2, [], f, ([] ++ [chr "."] ++ f). splits; auto. apply mantissa_decimals; auto. apply numeral_of; auto.
      * right. splits; auto. intros r [= ->]. auto.
    + right. splits; auto. intros r ->. discriminate S2.
Qed.
Lemma mantissa_complete m n k r : mantissa_text m n k -> starts is_digit r = false -> starts (N.eqb dot) r = false ->
  exists a f, mantissa_p (m ++ r) = POk r (a, f) /\ digits_value (a ++ f) = n /\ length f = k.
Proof.
  intros H Sd Sp. unfold mantissa_p, alt, map_opt, pair_, preceded, opt. destruct H as [ds n H|ds n H|a f n H Nf].
  - exists ds, []. apply numeral_value in H as (N & F & V). rewrite digit1_app by auto. cbn [pbind]. destruct (char_cases (chr ".") r) as [(r1 & -> & _)|(_ & ->)]; [discriminate Sp|]. cbn [pbind fst snd]. rewrite app_nil_r. auto.
  - exists ds, []. apply numeral_value in H as (N & F & V). rewrite <- app_assoc. rewrite digit1_app by auto. cbn [pbind app]. change (char_ (chr ".") (chr "." :: r)) with (POk r (chr ".")). cbn [pbind].
    destruct (digit1_cases r) as [(f & r2 & _ & -> & N2 & F2 & _)|[-> _]]; [destruct f; [congruence|]; cbn [app starts forallb] in *; apply andb_true_iff in F2 as [F2 _]; congruence|]. cbn [pbind fst snd]. rewrite app_nil_r. auto.
  - apply numeral_value in H as (N & F & V). rewrite forallb_app in F. apply andb_true_iff in F as [Fa Ff]. exists a, f. replace ((a ++ [chr "."] ++ f) ++ r) with (a ++ (chr "." :: (f ++ r))) by (rewrite <- !app_assoc; reflexivity).
    destruct a as [|c a].
    + cbn [app]. change (digit1 (chr "." :: f ++ r)) with (@PError text). cbn [pbind]. change (char_ (chr ".") (chr "." :: f ++ r)) with (POk (f ++ r) (chr ".")). cbn [pbind]. rewrite digit1_app by auto. cbn [pbind]. auto.
    + rewrite digit1_app by (auto; discriminate). cbn [pbind]. change (char_ (chr ".") (chr "." :: f ++ r)) with (POk (f ++ r) (chr ".")). cbn [pbind]. rewrite digit1_app by auto. cbn [pbind fst snd]. auto.
Qed.
Lemma mantissa_starts m n k r : mantissa_text m n k -> starts (fun c => is_digit c || N.eqb c dot) (m ++ r) = true.
Proof.
  assert (K : forall t, starts is_digit t = true -> starts (fun c => is_digit c || N.eqb c dot) t = true) by (intros [|c t]; cbn; [discriminate|intros ->; auto]).
  intros [ds n' H|ds n' H|a f n' H Nf]; rewrite <- ?app_assoc; try (apply K; eapply numeral_starts; eauto; fail). destruct a as [|c a]; [reflexivity|]. apply K. apply numeral_value in H as (_ & F & _). cbn [app forallb] in F. apply andb_true_iff in F as [F _]. auto.
Qed.

Definition is_e (c : N) : bool := existsb (N.eqb c) [chr "e"; chr "E"].
Lemma is_e_In c : is_e c = true <-> In c [chr "e"; chr "E"].
Proof. unfold is_e. rewrite existsb_exists. split; [intros (x & H & E); apply N.eqb_eq in E as ->; auto|intros H; exists c; split; auto; apply N.eqb_refl]. Qed.
Lemma one_of_cases cs i : (exists c r, i = c :: r /\ one_of cs i = POk r c /\ In c cs) \/ (one_of cs i = PError /\ starts (fun c => existsb (N.eqb c) cs) i = false).
Proof.
  unfold one_of. destruct i as [|c r]; auto. cbn [starts]. destruct (existsb (N.eqb c) cs) eqn:E; auto. left. exists c, r. splits; auto. apply existsb_exists in E as (x & H & E). apply N.eqb_eq in E as ->. auto.
Qed.
Lemma opt_sign_cases i : exists s k r, opt sign_char i = POk r (match s with [c] => Some c | _ => None end) /\ i = s ++ r /\ sign_text s k /\ sign_value (match s with [c] => Some c | _ => None end) = k /\ (s = [] -> starts is_sign i = false).
Proof.
  unfold opt, sign_char. destruct (one_of_cases [chr "+"; chr "-"] i) as [(c & r & -> & -> & H)|[-> S]].
  - destruct H as [<-|[<-|[]]]; [exists [chr "+"], 1%Z, r|exists [chr "-"], (-1)%Z, r]; splits; auto; try constructor; discriminate.
  - exists [], 1%Z, i. splits; auto. constructor.
Qed.
Lemma opt_sign_complete s k r : sign_text s k -> starts is_sign r = false -> opt sign_char (s ++ r) = POk r (match s with [c] => Some c | _ => None end) /\ sign_value (match s with [c] => Some c | _ => None end) = k.
Proof.
  intros [| |] S; [|auto|auto]. cbn [app]. unfold opt, sign_char. destruct (one_of_cases [chr "+"; chr "-"] r) as [(c & r1 & -> & _ & H)|[-> _]]; auto. destruct H as [<-|[<-|[]]]; discriminate S.
Qed.
Definition exp_value (x : option (option char * text)) : Z := match x with Some (es, ed) => (sign_value es * digits_value ed)%Z | None => 0%Z end.
Lemma exponent_eq i : exponent_p i = match pbind (one_of [chr "e"; chr "E"] i) (fun r _ => pbind (opt sign_char r) (fun r0 a => pbind (match digit1 r0 with PError => PFailure | x => x end) (fun r' b => POk r' (a, b)))) with
  POk r a => POk r (Some a) | PError => POk i None | PFailure => PFailure | PPanic => PPanic end.
Proof. reflexivity. Qed.
Lemma exponent_cases i : (exists r x t, exponent_p i = POk r x /\ i = t ++ r /\ exponent_text t (exp_value x)) \/
  (exponent_p i = PFailure /\ exists c s k post, In c [chr "e"; chr "E"] /\ sign_text s k /\ i = c :: s ++ post /\ starts is_digit post = false).
Proof.
  rewrite exponent_eq. destruct (one_of_cases [chr "e"; chr "E"] i) as [(c & r & -> & -> & H)|[-> _]]; cbn [pbind].
  - destruct (opt_sign_cases r) as (s & k & r1 & -> & -> & Hs & Ek & _). cbn [pbind]. destruct (digit1_cases r1) as [(ds & r2 & -> & -> & N & F & S)|[-> S]]; cbn [pbind].
    + left. eexists _, _, (c :: s ++ ds). splits; [reflexivity|cbn [app]; rewrite <- app_assoc; auto|]. cbn [exp_value]. rewrite Ek. apply exponent_some; auto. apply numeral_of; auto.
    + right. split; auto. exists c, s, k, r1. splits; auto.
  - left. exists i, None, []. splits; auto. constructor.
Qed.
Lemma digits_not_sign ds r : ds <> [] -> forallb is_digit ds = true -> starts is_sign (ds ++ r) = false.
Proof. intros N F. destruct ds as [|c ds]; [congruence|]. cbn [app starts]. cbn [forallb] in F. apply andb_true_iff in F as [F _]. apply first_facts. unfold is_first. rewrite F. auto. Qed.
Lemma exponent_complete t e r : exponent_text t e -> starts is_digit r = false -> starts is_e r = false -> exists x, exponent_p (t ++ r) = POk r x /\ exp_value x = e.
Proof.
  intros H Sd Se. rewrite exponent_eq. destruct H as [|c s k ds n Hc Hs Hn].
  - cbn [app]. destruct (one_of_cases [chr "e"; chr "E"] r) as [(c & r1 & -> & _ & H)|[-> _]]; [apply is_e_In in H; cbn [starts] in Se; congruence|]. cbn [pbind]. eauto.
  - cbn [app]. destruct (one_of_cases [chr "e"; chr "E"] (c :: (s ++ ds) ++ r)) as [(c1 & r1 & [= <- <-] & -> & H)|[_ S]]; [|apply is_e_In in Hc; unfold is_e in Hc; cbn [starts] in S; congruence]. cbn [pbind].
    rewrite <- app_assoc. apply numeral_value in Hn as (N & F & V). destruct (opt_sign_complete s k (ds ++ r) Hs) as [-> Ek]; [apply digits_not_sign; auto|]. cbn [pbind]. rewrite digit1_app by auto. cbn [pbind]. eexists. split; [reflexivity|]. cbn [exp_value]. rewrite Ek, <- V. reflexivity.
Qed.
Lemma exponent_starts t e r : exponent_text t e -> starts is_digit r = false -> starts (N.eqb dot) r = false -> starts is_digit (t ++ r) = false /\ starts (N.eqb dot) (t ++ r) = false.
Proof. intros [|c s k ds n Hc Hs Hn] S1 S2; auto. destruct Hc as [<-|[<-|[]]]; auto. Qed.
Lemma ten_to_power10 e : power10 e = ten_to e.
Proof. unfold power10, ten_to. destruct e as [|p|p]; auto. Qed.
Definition number_of := float_value.
Lemma float_value_eq s a f x k : sign_value s = k -> float_value (s, ((a, f), x)) = (ZQ (k * digits_value (a ++ f)) * ten_to (exp_value x - Z.of_nat (length f)))%Qc.
Proof. intros <-. unfold float_value. rewrite ten_to_power10. destruct x as [[es ed]|]; reflexivity. Qed.
Definition no_number (i : text) : Prop := forall s k r, sign_text s k -> i = s ++ r -> starts is_digit r = false /\ forall r', r = dot :: r' -> starts is_digit r' = false.
Lemma float_cases i : (exists r p t, float_parts i = POk r p /\ i = t ++ r /\ number_text t (float_value p)) \/
  (float_parts i = PError /\ no_number i) \/ (float_parts i = PFailure /\ cut_exponent i).
Proof.
  unfold float_parts, pair_. destruct (opt_sign_cases i) as (s & k & r & -> & -> & Hs & Ek & Ns). cbn [pbind]. destruct (mantissa_cases r) as [(r1 & a & f & m & -> & -> & Hm)|[-> [S1 S2]]]; cbn [pbind].
  - destruct (exponent_cases r1) as [(r2 & x & t & -> & -> & Hx)|[-> (c & s2 & k2 & post & Hc & Hs2 & -> & Sp)]]; cbn [pbind].
    + left. eexists _, _, (s ++ m ++ t). splits; [reflexivity|rewrite <- !app_assoc; auto|]. rewrite (float_value_eq _ a f x k Ek). apply number_parts; auto.
    + right; right. split; auto. exists s, m, (digits_value (a ++ f)), (length f), c, s2, k2, post. splits; auto. intros y d t -> H. cbn [starts] in Sp. assert (is_digit y = true) by (apply digit_bool; eauto). congruence.
  - right; left. split; auto. intros s' k' r' Hs' E. destruct Hs as [| |]; [specialize (Ns eq_refl)|clear Ns|clear Ns]; cbn [app] in *.
    + destruct Hs'; cbn [app] in E; subst; auto; discriminate Ns.
    + destruct Hs'; cbn [app] in E; [|injection E as <-; auto|discriminate E]. rewrite <- E. split; [reflexivity|]. intros r'' E2. discriminate E2.
    + destruct Hs'; cbn [app] in E; [|discriminate E|injection E as <-; auto]. rewrite <- E. split; [reflexivity|]. intros r'' E2. discriminate E2.
Qed.
(** what follows a field *)
Definition ends_field (r : text) : Prop := forall c t, r = c :: t -> blank c \/ c = chr "#".
Lemma ends_starts r (f : N -> bool) : ends_field r -> f 32%N = false -> f 9%N = false -> f (chr "#") = false -> starts f r = false.
Proof. intros E H1 H2 H3. destruct r as [|c r]; auto. cbn [starts]. destruct (E c r eq_refl) as [[->| ->]| ->]; auto. Qed.
Lemma float_complete t q r : number_text t q -> ends_field r -> exists p, float_parts (t ++ r) = POk r p /\ float_value p = q.
Proof.
  intros H E. destruct H as [s k m n places x e Hs Hm Hx]. unfold float_parts, pair_. rewrite <- !app_assoc.
  assert (Sm : starts is_sign (m ++ x ++ r) = false).
  { eapply starts_excl; [eapply mantissa_starts; eauto|]. intros c Hc. apply orb_true_iff in Hc as [Hc|Hc]; [apply first_facts; unfold is_first; rewrite Hc; auto|]. apply N.eqb_eq in Hc as ->. reflexivity. }
  destruct (opt_sign_complete s k (m ++ x ++ r) Hs Sm) as [-> Ek]. cbn [pbind].
  destruct (exponent_starts x e r Hx) as [S1 S2]; [apply ends_starts; auto|apply ends_starts; auto|].
  destruct (mantissa_complete m n places (x ++ r) Hm S1 S2) as (a & f & -> & Ev & El). cbn [pbind].
  destruct (exponent_complete x e r Hx) as (y & -> & Ey); [apply ends_starts; auto|apply ends_starts; auto|]. cbn [pbind]. eexists. split; [reflexivity|].
  rewrite (float_value_eq _ a f y k Ek), Ev, El, Ey. reflexivity.
Qed.

(** ** nan and inf *)
Lemma lower_same a b : letter b -> (97 <= b)%N -> lower_ascii a = b <-> same_letter a b.
Proof.
  intros L B. unfold lower_ascii, same_letter, letter in *. destruct (N.leb_spec 65 a), (N.leb_spec a 90); cbn [andb]; split; intros H1; try lia.
Qed.
Definition lower_word (w : text) : Prop := Forall (fun b => letter b /\ (97 <= b)%N) w.
Lemma spells_lower t w : lower_word w -> spells t w <-> map lower_ascii t = w.
Proof.
  intros L. revert t. induction L as [|b w [Hl Hb] L IH]; intros t; split.
  - intros H. inversion H. auto.
  - intros H. destruct t; [constructor|discriminate].
  - intros H. inversion H as [|a b' t' w' Ha Ht]; subst. cbn [map]. f_equal; [apply lower_same; auto|apply IH; auto].
  - intros H. destruct t as [|a t]; [discriminate|]. cbn [map] in H. injection H as H1 H2. constructor; [apply lower_same; auto|apply IH; auto].
Qed.
Lemma spells_length t w : spells t w -> length t = length w. Proof. induction 1; cbn; auto. Qed.
Lemma tag_cases w i : lower_word w -> (exists t r, tag_no_case w i = POk r t /\ i = t ++ r /\ spells t w) \/ (tag_no_case w i = PError /\ forall t r, spells t w -> i <> t ++ r).
Proof.
  intros L. unfold tag_no_case. destruct (Nat.leb_spec (length w) (length i)) as [Hl|Hl]; cbn [andb].
  - destruct (list_eq_dec N.eq_dec (map lower_ascii (firstn (length w) i)) w) as [E|E].
    + left. eexists _, _. splits; [reflexivity|symmetry; apply firstn_skipn|]. apply spells_lower; auto.
    + right. split; auto. intros t r Ht ->. apply E. assert (length t = length w) by (apply spells_length in Ht; auto). rewrite firstn_app, <- H, firstn_all, Nat.sub_diag. cbn [firstn]. rewrite app_nil_r. apply spells_lower; auto.
  - right. split; auto. intros t r Ht ->. apply spells_length in Ht. rewrite app_length in Hl. lia.
Qed.
Lemma lower_nan : lower_word (str "nan"). Proof. repeat constructor; unfold letter; cbn; lia. Qed.
Lemma lower_inf : lower_word (str "inf"). Proof. repeat constructor; unfold letter; cbn; lia. Qed.
Lemma lower_infinity : lower_word (str "infinity"). Proof. repeat constructor; unfold letter; cbn; lia. Qed.
Lemma infinity_inf t r : spells t (str "infinity") -> exists t' r', t ++ r = t' ++ r' /\ spells t' (str "inf").
Proof.
  intros H. cbn in H. repeat match goal with H : spells _ _ |- _ => unfold spells in H | H : Forall2 _ _ _ |- _ => inversion H; clear H; subst end.
  eexists [_; _; _], _. split; [reflexivity|]. repeat (apply Forall2_cons; [assumption|]). apply Forall2_nil.
Qed.
Definition no_special (i : text) : Prop := forall t r, spells t (str "nan") \/ spells t (str "inf") -> i <> t ++ r.

Section Field.
  Variable rnd : Qc -> option Qc.
  Lemma number_field_of q : number_field rnd q (double_to_field (to_f64 rnd q)).
  Proof.
    unfold to_f64, double_to_field. destruct (rnd q) as [x|] eqn:E; [|apply number_large; auto]. destruct (Pos.eqb_spec (Qden x) 1) as [D|D].
    - assert (X : x = ZQ (Qnum x)). { rewrite (num_den x), D at 1. change (ZQ 1) with 1%Qc. field. discriminate. }
      destruct (i32 (Qnum x)) as [n|] eqn:I.
      + apply i32_inv in I as [-> R]. apply number_int; auto. congruence.
      + apply number_double; auto. intros n R Ex. rewrite X in Ex. apply ZQ_inj in Ex. rewrite Ex, i32_some in I by auto. discriminate I.
    - apply number_double; auto. intros n R ->. apply D. unfold ZQ, Q2Qc. cbn [this]. rewrite Qred_identity by (cbn; rewrite Z.gcd_1_r; auto). reflexivity.
  Qed.
  Lemma number_field_unique q f : number_field rnd q f -> f = double_to_field (to_f64 rnd q).
  Proof.
    intros H. pose proof (number_field_of q) as G. destruct H as [n E R|x E R|E]; destruct G as [n' E' R'|x' E' R'|E']; try congruence.
    - assert (ZQ n = ZQ n') by congruence. apply ZQ_inj in H. congruence.
    - exfalso. apply (R' n R). congruence.
    - exfalso. apply (R n' R'). congruence.
  Qed.
  Lemma double_cases i : (exists r x t, double_p rnd i = POk r x /\ i = t ++ r /\ field_text rnd t (double_to_field x)) \/ (double_p rnd i = PError /\ no_number i /\ no_special i) \/ (double_p rnd i = PFailure /\ cut_exponent i).
  Proof.
    unfold double_p, alt, map_opt. destruct (float_cases i) as [(r & p & t & -> & E & H)|[[-> N]|[-> C]]]; cbn [pbind].
    - left. eexists _, _, t. splits; [reflexivity|auto|]. eapply field_number; eauto. apply number_field_of.
    - destruct (tag_cases (str "nan") i lower_nan) as [(t & r & -> & E & H)|[-> N1]]; cbn [pbind].
      { left. eexists _, _, t. splits; [reflexivity|auto|]. apply field_nan. auto. }
      destruct (tag_cases (str "inf") i lower_inf) as [(t & r & -> & E & H)|[-> N2]]; cbn [pbind].
      { left. eexists _, _, t. splits; [reflexivity|auto|]. apply field_inf. auto. }
      destruct (tag_cases (str "infinity") i lower_infinity) as [(t & r & _ & -> & H)|[-> N3]]; cbn [pbind].
      { exfalso. destruct (infinity_inf t r H) as (t' & r' & E & H'). apply (N2 t' r' H'). auto. }
      right; left. splits; auto. intros t r [H|H]; eauto.
    - right; right. auto.
  Qed.
  Lemma stops_spec c : stops_name c = false <-> word_char c.
  Proof.
    unfold stops_name, word_char, dquote. rewrite !orb_false_iff, !N.eqb_neq. assert (is_blank (c mod 256) = false <-> ~ blank (c mod 256)%N); [|tauto].
    rewrite <- blank_bool. destruct (is_blank (c mod 256)); intuition congruence.
  Qed.
  Lemma word_bool s : forallb (fun c => negb (stops_name c)) s = true <-> Forall word_char s.
  Proof. rewrite forallb_forall, Forall_forall. split; intros H c Hc; specialize (H c Hc); [apply stops_spec; destruct (stops_name c); auto; discriminate|apply stops_spec in H; rewrite H; auto]. Qed.
  Lemma name_cases i : (exists r s, name_p i = POk r s /\ i = s ++ r /\ word s) \/ (name_p i = PError /\ forall c r, i = c :: r -> ~ word_char c).
  Proof.
    unfold name_p, take_till1. destruct (span_spec (fun c => negb (stops_name c)) i) as (E & H & F & S). rewrite E. destruct (fst (span _ i)) as [|c s] eqn:D.
    - right. split; auto. intros c r ->. cbn [app] in H. rewrite <- H in S. cbn [starts] in S. intros W. apply stops_spec in W. rewrite W in S. discriminate S.
    - left. eexists _, _. splits; [reflexivity|auto|]. split; [discriminate|]. apply word_bool. auto.
  Qed.
  Definition ends_word (r : text) : Prop := forall c t, r = c :: t -> ~ word_char c.
  Lemma name_complete s r : word s -> ends_word r -> name_p (s ++ r) = POk r s.
  Proof.
    intros [N F] E. unfold name_p, take_till1. rewrite span_app; [destruct s; [congruence|auto]|apply word_bool; auto|]. destruct r as [|c r]; auto. cbn [starts]. specialize (E c r eq_refl).
    destruct (stops_name c) eqn:S; auto. apply stops_spec in S. contradiction.
  Qed.
  Lemma blank_mod c : blank c -> ~ word_char c.
  Proof. intros [->| ->] (_ & _ & H); apply H; [left|right]; reflexivity. Qed.
  Lemma ends_field_word r : ends_field r -> ends_word r.
  Proof. intros E c t Er. destruct (E c t Er) as [B| ->]; [apply blank_mod; auto|intros (_ & H & _); auto]. Qed.
  Lemma quoted_cases i : (exists r s, quoted_string i = POk r s /\ i = [34%N] ++ s ++ [34%N] ++ r /\ s <> [] /\ ~ In 34%N s) \/ quoted_string i = PError.
  Proof.
    unfold quoted_string, delimited. destruct (char_cases dquote i) as [(r & -> & ->)|(_ & ->)]; cbn [pbind]; auto. unfold take_until1.
    destruct (span_spec (fun x => negb (N.eqb x dquote)) r) as (E & H & F & S). rewrite E. destruct (fst (span _ r)) as [|c s] eqn:D; cbn [pbind]; auto.
    destruct (snd (span (fun x => negb (N.eqb x dquote)) r)) as [|q r1] eqn:D2; cbn [pbind]; auto. cbn [starts] in S. apply negb_false_iff in S. cbn [char_]. rewrite S. apply N.eqb_eq in S as ->. cbn [pbind]. left. exists r1, (c :: s). splits; auto; [rewrite H; reflexivity|discriminate|].
    intros I. rewrite forallb_forall in F. specialize (F _ I). rewrite N.eqb_refl in F. discriminate F.
  Qed.
  Lemma quoted_complete s r : s <> [] -> ~ In 34%N s -> quoted_string (([34%N] ++ s ++ [34%N]) ++ r) = POk r s.
  Proof.
    intros N I. replace (([34%N] ++ s ++ [34%N]) ++ r) with (dquote :: (s ++ (dquote :: r))) by (cbn [app]; rewrite <- app_assoc; reflexivity). unfold quoted_string, delimited. cbn [char_]. rewrite N.eqb_refl. cbn [pbind].
    unfold take_until1. rewrite span_app; [|apply forallb_forall; intros c Hc; apply negb_true_iff, N.eqb_neq; intros ->; auto|cbn [starts]; rewrite N.eqb_refl; auto]. destruct s; [congruence|]. cbn [pbind char_]. rewrite N.eqb_refl. reflexivity.
  Qed.
  Lemma field_cases i : (exists r f t, field_p rnd i = POk r f /\ i = t ++ r /\ field_text rnd t f /\ t <> []) \/ field_p rnd i = PError \/ (field_p rnd i = PFailure /\ cut_exponent i) \/ (field_p rnd i = PPanic /\ zero_quotient i).
  Proof.
    assert (K : (exists r f t, field_p rnd i = POk r f /\ i = t ++ r /\ field_text rnd t f) \/ field_p rnd i = PError \/ (field_p rnd i = PFailure /\ cut_exponent i) \/ (field_p rnd i = PPanic /\ zero_quotient i)).
    { unfold field_p, alt, map_opt. destruct (fraction_p_cases i) as [(r & q & t & -> & E & H)|[->|[-> Z]]]; cbn [pbind].
      - left. eexists _, _, t. splits; [reflexivity|auto|constructor; auto].
      - destruct (double_cases i) as [(r & x & t & -> & E & H)|[[-> _]|[-> C]]]; cbn [pbind].
        + left. eexists _, _, t. splits; [reflexivity|auto|auto].
        + destruct (quoted_cases i) as [(r & s & -> & E & N & I)| ->]; cbn [pbind].
          * left. eexists _, _, ([34%N] ++ s ++ [34%N]). splits; [reflexivity|rewrite E, <- !app_assoc; auto|apply field_quoted; auto].
          * destruct (name_cases i) as [(r & s & -> & E & W)|[-> _]]; cbn [pbind]; auto. left. eexists _, _, s. splits; [reflexivity|auto|apply field_word; auto].
        + auto.
      - auto. }
    destruct K as [(r & f & t & E & Ei & H)|K]; auto. left. exists r, f, t. splits; auto. clear -H. destruct H as [t q [a n b m Ha _ _ _ _|a n b m Ha _ _ _ _]|t q f [s k m n places x e Hs Hm Hx] _|t H|t H|s N _|s [N _]]; auto; try discriminate.
    - destruct a; [apply numeral_nonempty in Ha; congruence|discriminate].
    - pose proof (mantissa_starts m n places [] Hm) as S. rewrite app_nil_r in S. destruct m; [discriminate S|]. destruct s; discriminate.
    - inversion H. discriminate.
    - inversion H. discriminate.
  Qed.
End Field.
