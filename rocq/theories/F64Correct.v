(** The f64 operations return the exact result rounded to nearest, ties to even (rnd64 of F64Round). *)
From Coq Require Import List ZArith Lia Bool PeanoNat.
From Coq Require Import QArith Qcanon Qcabs.
From Coq Require Import Floats.SpecFloat.
From Verif Require Import Base ZQ F64 F64Exact F64Round.
Import ListNotations.
Close Scope Q_scope. Close Scope Qc_scope.
Local Open Scope Z_scope.

(** P / W is m plus a fraction; l tells how that compares with one half *)
Definition at_loc (P W m : Z) (l : location) : Prop :=
  exists R, P = m * W + R /\ 0 <= R < W /\ match l with loc_Exact => R = 0 | loc_Inexact c => 0 < R /\ (2 * R ?= W) = c end.

Lemma at_loc_exact m W : 0 < W -> at_loc (m * W) W m loc_Exact.
Proof. intros H. exists 0. splits; lia. Qed.
Lemma at_loc_scale P W m l k : 0 < k -> at_loc P W m l -> at_loc (P * k) (W * k) m l.
Proof.
  intros Hk (R & E & B & L). exists (R * k). splits; [rewrite E; ring|nia|nia|]. destruct l as [|c]; [subst; lia|]. destruct L as [L1 L2]. split; [nia|].
  replace (2 * (R * k)) with (2 * R * k) by ring. rewrite <- L2. rewrite <- !(Z.mul_comm k). symmetry. apply Zmult_compare_compat_l. lia.
Qed.
Lemma at_loc_record m l : shr_m (shr_record_of_loc m l) = m /\ loc_of_shr_record (shr_record_of_loc m l) = l.
Proof. destruct l as [|[]]; split; reflexivity. Qed.

Lemma at_loc_shr_1 P W r : 0 < W -> 0 <= shr_m r -> at_loc P W (shr_m r) (loc_of_shr_record r) ->
  0 <= shr_m (shr_1 r) /\ at_loc P (2 * W) (shr_m (shr_1 r)) (loc_of_shr_record (shr_1 r)).
Proof.
  intros HW. destruct r as [m b s]. cbn [shr_m]. intros Hm (R & E & B & L).
  assert (G : forall m' b', m = 2 * m' + Z.b2z b' -> 0 <= m' -> at_loc P (2 * W) m' (loc_of_shr_record (Build_shr_record m' b' (orb b s)))).
  { intros m' b' Em Hm'. exists (Z.b2z b' * W + R). splits.
    - rewrite E, Em. ring.
    - destruct b'; cbn [Z.b2z]; lia.
    - destruct b'; cbn [Z.b2z]; lia.
    - destruct b', b, s; cbn [loc_of_shr_record orb Z.b2z] in *;
        repeat match goal with H : _ /\ _ |- _ => destruct H end; subst; rewrite ?Z.compare_eq_iff, ?Z.compare_lt_iff, ?Z.compare_gt_iff in *; splits; try lia. }
  unfold shr_1. destruct m as [|[p|p|]|p]; cbn [shr_m]; try lia; (split; [lia|]); apply G; auto; try reflexivity; try lia.
Qed.
Lemma at_loc_shr P n : forall W r, 0 < W -> 0 <= shr_m r -> at_loc P W (shr_m r) (loc_of_shr_record r) ->
  let r' := Nat.iter n shr_1 r in 0 <= shr_m r' /\ at_loc P (W * 2 ^ Z.of_nat n) (shr_m r') (loc_of_shr_record r').
Proof.
  induction n as [|n IH]; intros W r HW Hm H; cbv zeta.
  - cbn [Nat.iter nat_rect Z.of_nat]. rewrite Z.pow_0_r, Z.mul_1_r. auto.
  - cbn [Nat.iter nat_rect]. fold (Nat.iter n shr_1 r). destruct (IH W r HW Hm H) as [H1 H2]. cbv zeta in *.
    rewrite Nat2Z.inj_succ, Z.pow_succ_r by lia. replace (W * (2 * 2 ^ Z.of_nat n)) with (2 * (W * 2 ^ Z.of_nat n)) by ring.
    apply at_loc_shr_1; auto. apply Z.mul_pos_pos; auto. apply Z.pow_pos_nonneg; lia.
Qed.

Lemma at_loc_nearest P W m l : at_loc P W m l -> nearest_even P W = round_nearest_even m l.
Proof.
  intros (R & E & B & L). assert (Q : P / W = m) by (symmetry; apply (Z.div_unique_pos P W m R); lia).
  assert (M : P mod W = R) by (symmetry; apply (Z.mod_unique_pos P W m R); lia).
  unfold nearest_even. rewrite Q, M. destruct l as [|c].
  - subst R. destruct (Z.compare_spec (2 * 0) W); [lia|reflexivity|lia].
  - destruct L as [_ ->]. destruct c; reflexivity.
Qed.
Lemma nearest_even_scale a b k : 0 < b -> 0 < k -> nearest_even (a * k) (b * k) = nearest_even a b.
Proof.
  intros Hb Hk. unfold nearest_even. rewrite Z.div_mul_cancel_r by lia. rewrite Zmult_mod_distr_r.
  replace (2 * (a mod b * k)) with (2 * (a mod b) * k) by ring. rewrite <- !(Z.mul_comm k). rewrite <- (Zmult_compare_compat_l (2 * (a mod b)) b k) by lia. reflexivity.
Qed.
Lemma nearest_even_same a b a' b' : 0 < b -> 0 < b' -> a * b' = a' * b -> nearest_even a b = nearest_even a' b'.
Proof. intros Hb Hb' E. rewrite <- (nearest_even_scale a b b'), E, (Z.mul_comm b b') by auto. apply nearest_even_scale; auto. Qed.

Lemma round_exp_unique n d s : 0 <= n -> 0 < d -> 0 <= s -> n * 2 ^ 1074 < d * 2 ^ (s + 53) -> (0 < s -> d * 2 ^ (s + 52) <= n * 2 ^ 1074) -> round_exp n d = s.
Proof.
  intros Hn Hd Hs A B. pose proof (round_above n d Hn Hd) as A'. pose proof (round_below n d Hn Hd) as B'. pose proof (round_s n d) as S'.
  set (t := round_exp n d) in *. clearbody t. destruct (Z.lt_trichotomy t s) as [H|[H|H]]; auto; exfalso.
  - assert (2 ^ (t + 53) <= 2 ^ (s + 52)) by (apply Z.pow_le_mono_r; lia). assert (d * 2 ^ (t + 53) <= d * 2 ^ (s + 52)) by (apply Z.mul_le_mono_nonneg_l; lia). specialize (B ltac:(lia)). clear -A' B H1. lia.
  - assert (2 ^ (s + 53) <= 2 ^ (t + 52)) by (apply Z.pow_le_mono_r; lia). assert (d * 2 ^ (s + 53) <= d * 2 ^ (t + 52)) by (apply Z.mul_le_mono_nonneg_l; lia). specialize (B' ltac:(lia)). clear -A B' H1. lia.
Qed.

(** rnd64 computed from any way of writing the number *)
Lemma rnd64_written (q : Qc) A B K s : 0 < A -> 0 < B -> 1074 <= K -> 0 <= s -> (q * ZQ B = ZQ A * pow2 (- K))%Qc ->
  A < B * 2 ^ (s + 53 + (K - 1074)) -> (0 < s -> B * 2 ^ (s + 52 + (K - 1074)) <= A) ->
  let m := nearest_even A (B * 2 ^ (s + (K - 1074))) in
  rnd64 q = if 2 ^ 2098 <=? m * 2 ^ s then None else Some (ZQ m * pow2 (s - 1074))%Qc.
Proof.
  intros HA HB HK Hs Q Ab Be. cbv zeta. set (n := Qnum q). set (d := Zpos (Qden q)).
  assert (Hd : 0 < d) by (unfold d; lia).
  assert (E : n * 2 ^ K * B = A * d).
  { apply ZQ_inj. rewrite !ZQ_mul. unfold n, d. rewrite <- (Qc_num_den q). pose proof (pow2_neg K ltac:(lia)) as P.
    transitivity ((q * ZQ B) * (ZQ (Zpos (Qden q)) * ZQ (2 ^ K)))%Qc; [ring|]. rewrite Q.
    transitivity (ZQ A * ZQ (Zpos (Qden q)) * (pow2 (- K) * ZQ (2 ^ K)))%Qc; [ring|]. rewrite P. ring. }
  assert (P2 : 0 < 2 ^ K) by (apply Z.pow_pos_nonneg; lia).
  assert (Hn : 0 < n). { assert (0 < n * 2 ^ K * B) by (rewrite E; apply Z.mul_pos_pos; auto). destruct (Z.le_gt_cases n 0) as [L|]; auto. exfalso. assert (n * 2 ^ K <= 0) by (apply Z.mul_nonpos_nonneg; lia). assert (n * 2 ^ K * B <= 0) by (apply Z.mul_nonpos_nonneg; lia). lia. }
  set (G := 2 ^ (K - 1074)). assert (HG : 0 < G) by (apply Z.pow_pos_nonneg; lia).
  assert (EK : 2 ^ K = 2 ^ 1074 * G) by (unfold G; rewrite <- Z.pow_add_r by lia; f_equal; lia).
  assert (E2 : n * 2 ^ 1074 * (B * G) = A * d) by (rewrite <- E, EK; ring). set (X := n * 2 ^ 1074) in *.
  assert (HBG : 0 < B * G) by (apply Z.mul_pos_pos; auto).
  assert (Hr : round_exp n d = s).
  { apply round_exp_unique; auto; try lia; fold X.
    - apply (Z.mul_lt_mono_pos_r (B * G)); auto. rewrite E2. replace (d * 2 ^ (s + 53) * (B * G)) with (B * (2 ^ (s + 53) * G) * d) by ring. unfold G. rewrite <- Z.pow_add_r by lia. apply Z.mul_lt_mono_pos_r; auto.
    - intros H. apply (Z.mul_le_mono_pos_r _ _ (B * G)); auto. rewrite E2. replace (d * 2 ^ (s + 52) * (B * G)) with (B * (2 ^ (s + 52) * G) * d) by ring. unfold G. rewrite <- Z.pow_add_r by lia. apply Z.mul_le_mono_nonneg_r; [lia|auto]. }
  assert (P3 : 0 < 2 ^ s) by (apply Z.pow_pos_nonneg; lia).
  assert (Hm : round_mant n d = nearest_even A (B * 2 ^ (s + (K - 1074)))).
  { unfold round_mant. rewrite Hr. fold X. rewrite Z.pow_add_r by lia. fold G. apply nearest_even_same; [apply Z.mul_pos_pos; auto|apply Z.mul_pos_pos; auto; apply Z.mul_pos_pos; auto|].
    replace (X * (B * (2 ^ s * G))) with (X * (B * G) * 2 ^ s) by ring. rewrite E2. ring. }
  unfold rnd64. fold n d. rewrite (Z.abs_eq n) by lia. rewrite Hr, Hm, Z.sgn_pos, Z.mul_1_l by auto. reflexivity.
Qed.

Lemma rnd64_opp q : rnd64 (- q)%Qc = option_map Qcopp (rnd64 q).
Proof.
  assert (E : this (- q)%Qc = (- this q)%Q).
  { cbn [Qcopp this Q2Qc]. rewrite Qred_opp. f_equal. apply (canon q). }
  unfold rnd64. rewrite E. cbn [Qopp Qnum Qden]. rewrite Z.abs_opp. destruct (_ <=? _); cbn [option_map]; auto. f_equal. rewrite Z.sgn_opp, Z.mul_opp_l, ZQ_opp. ring.
Qed.

(** [f] is q rounded *)
Definition rounded (f : float) (q : Qc) (neg : bool) : Prop :=
  match rnd64 q with Some r => is_value f r | None => f = S754_infinity neg end.

Lemma digits_nonneg m : 0 <= m -> Zdigits2 m = if m =? 0 then 0 else Z.log2 m + 1.
Proof. intros H. destruct m; try lia; [reflexivity|]. apply digits_log2. Qed.

Lemma round_aux_correct neg A B K m e l (q : Qc) : 0 < A -> 0 < B -> 1074 <= K -> - K <= e -> 0 <= m -> (q * ZQ B = ZQ A * pow2 (- K))%Qc ->
  at_loc A (B * 2 ^ (e + K)) m l -> e <= fexp 53 1024 (Zdigits2 m + e) ->
  rounded (binary_round_aux 53 1024 neg m e l) (if neg then - q else q)%Qc neg.
Proof.
  intros HA HB HK He Hm Q L F0.
  set (F := fexp 53 1024 (Zdigits2 m + e)) in *.
  assert (HF : F = Z.max (Zdigits2 m + e - 53) (-1074)) by reflexivity.
  set (s := F + 1074). assert (Hs : 0 <= s) by lia.
  assert (W0 : 0 < B * 2 ^ (e + K)) by (apply Z.mul_pos_pos; auto; apply Z.pow_pos_nonneg; lia).
  (* the first shift *)
  assert (S1 : exists r, shr_fexp 53 1024 m e l = (r, F) /\ 0 <= shr_m r /\ at_loc A (B * 2 ^ (s + (K - 1074))) (shr_m r) (loc_of_shr_record r)).
  { unfold shr_fexp. fold F. destruct (at_loc_record m l) as [R1 R2]. rewrite <- R2 in L. rewrite <- R1 in L at 1. destruct (F - e) as [|p|p] eqn:D; [| |lia].
    - exists (shr_record_of_loc m l). cbn [shr]. rewrite R1 in *. splits; auto; [f_equal; lia|]. replace (s + (K - 1074)) with (e + K) by lia. exact L.
    - cbn [shr]. rewrite iter_pos_iter. eexists. split; [f_equal; lia|]. rewrite <- R1 in Hm. destruct (at_loc_shr A (Pos.to_nat p) _ _ W0 Hm L) as [H1 H2]. cbv zeta in *. split; auto.
      rewrite positive_nat_Z, <- D in H2. replace (B * 2 ^ (e + K) * 2 ^ (F - e)) with (B * 2 ^ (s + (K - 1074))) in H2; [exact H2|]. rewrite <- Z.mul_assoc, <- Z.pow_add_r by lia. do 2 f_equal. lia. }
  destruct S1 as (r & S1 & Hr & Lr).
  (* the bounds *)
  assert (Ab : A < B * 2 ^ (s + 53 + (K - 1074))).
  { destruct L as (R & EA & RB & _). assert (m + 1 <= 2 ^ Zdigits2 m).
    { rewrite digits_nonneg by auto. destruct (Z.eqb_spec m 0) as [->|N]; [simpl; lia|]. pose proof (Z.log2_spec m ltac:(lia)). unfold Z.succ in *. lia. }
    assert (D0 : 0 <= Zdigits2 m) by (rewrite digits_nonneg by auto; destruct (m =? 0); [lia|pose proof (Z.log2_nonneg m); lia]).
    assert (A < (m + 1) * (B * 2 ^ (e + K))) by lia. eapply Z.lt_le_trans; [exact H0|].
    eapply Z.le_trans; [apply Z.mul_le_mono_nonneg_r; [lia|exact H]|]. rewrite Z.mul_comm, <- Z.mul_assoc, <- Z.pow_add_r by lia. apply Z.mul_le_mono_nonneg_l; [lia|]. apply Z.pow_le_mono_r; lia. }
  assert (Be : 0 < s -> B * 2 ^ (s + 52 + (K - 1074)) <= A).
  { intros Ps. destruct L as (R & EA & RB & _). rewrite digits_nonneg in * by auto. destruct (Z.eqb_spec m 0) as [Zm|N]; [lia|]. pose proof (Z.log2_spec m ltac:(lia)) as [Lm _]. pose proof (Z.log2_nonneg m).
    replace (s + 52 + (K - 1074)) with (Z.log2 m + (e + K)) by lia. rewrite Z.pow_add_r by lia. replace (B * (2 ^ Z.log2 m * 2 ^ (e + K))) with (2 ^ Z.log2 m * (B * 2 ^ (e + K))) by ring.
    assert (2 ^ Z.log2 m * (B * 2 ^ (e + K)) <= m * (B * 2 ^ (e + K))) by (apply Z.mul_le_mono_nonneg_r; lia). lia. }
  pose proof (rnd64_written q A B K s HA HB HK Hs Q Ab Be) as Rq. cbv zeta in Rq. rewrite (at_loc_nearest _ _ _ _ Lr) in Rq.
  set (W := B * 2 ^ (s + (K - 1074))) in *. assert (HW : 0 < W) by (apply Z.mul_pos_pos; auto; apply Z.pow_pos_nonneg; lia).
  set (M := round_nearest_even (shr_m r) (loc_of_shr_record r)) in *. assert (EM : M = nearest_even A W) by (symmetry; apply at_loc_nearest; exact Lr).
  assert (M0 : 0 <= M) by (rewrite EM; apply nearest_even_ge; auto; lia).
  assert (M1 : M <= 2 ^ 53). { rewrite EM. apply nearest_even_le; auto. apply Z.lt_le_incl. unfold W. rewrite <- Z.mul_assoc, <- Z.pow_add_r by lia. replace (s + (K - 1074) + 53) with (s + 53 + (K - 1074)) by lia. exact Ab. }
  assert (M2 : 0 < s -> 2 ^ 52 <= M). { intros Ps. rewrite EM. apply nearest_even_ge; auto. unfold W. rewrite <- Z.mul_assoc, <- Z.pow_add_r by lia. replace (s + (K - 1074) + 52) with (s + 52 + (K - 1074)) by lia. auto. }
  assert (RW : rounded (binary_round_aux 53 1024 neg m e l) (if neg then - q else q)%Qc neg <->
    match (if 2 ^ 2098 <=? M * 2 ^ s then None else Some (ZQ M * pow2 (s - 1074))%Qc) with
    | Some v => is_value (binary_round_aux 53 1024 neg m e l) (if neg then - v else v)%Qc
    | None => binary_round_aux 53 1024 neg m e l = S754_infinity neg end).
  { unfold rounded. destruct neg; rewrite ?rnd64_opp, Rq; destruct (_ <=? _); cbn [option_map]; reflexivity. }
  rewrite RW. clear RW. unfold binary_round_aux. rewrite S1. fold M.
  assert (P98 : forall t, 0 <= t -> (2 ^ 2098 <= 2 ^ t <-> 2098 <= t)) by (intros; symmetry; apply Z.pow_le_mono_r_iff; lia).
  destruct (Z.eq_dec M 0) as [ZM|NM].
  - rewrite ZM. assert (ET : shr_fexp 53 1024 0 F loc_Exact = (Build_shr_record 0 false false, F)).
    { unfold shr_fexp. cbn [Zdigits2 shr_record_of_loc]. rewrite fexp_spec. destruct (Z.max (0 + F - 53) (-1074) - F) eqn:D; [reflexivity|lia|reflexivity]. }
    rewrite ET. cbn [shr_m]. rewrite Z.mul_0_l. assert (2 ^ 2098 <=? 0 = false) as ->. { apply Z.leb_gt. apply Z.pow_pos_nonneg; lia. }
    split; [reflexivity|]. cbn [value]. f_equal. change (ZQ 0) with 0%Qc. destruct neg; ring.
  - destruct (Z.eq_dec M (2 ^ 53)) as [EM53|NM53].
    + rewrite (shr_fexp_exact M F (2 ^ 52) 1); [|rewrite EM53; change (Z.log2 (2 ^ 53)) with 53; rewrite fexp_spec; lia|lia|lia|rewrite EM53; reflexivity].
      cbn [shr_m]. change (2 ^ 52) with 4503599627370496. cbv iota beta.
      assert (T : 2 ^ 2098 <=? M * 2 ^ s = negb (F + 1 <=? 1024 - 53)).
      { rewrite EM53, <- Z.pow_add_r by lia. apply eq_true_iff_eq. rewrite negb_true_iff, Z.leb_le, Z.leb_gt, P98 by lia. lia. }
      rewrite T. destruct (Z.leb_spec (F + 1) (1024 - 53)) as [H|H]; cbn [negb]; [|reflexivity].
      split.
      * unfold is_f64, valid_binary, bounded. apply andb_true_iff. split; [|apply Zle_is_le_bool; lia]. unfold canonical_mantissa. apply Zeq_is_eq_bool. change (Zpos (digits2_pos 4503599627370496)) with 53. rewrite fexp_spec. lia.
      * cbn [value]. f_equal. change 4503599627370496%positive with (2 ^ 52)%positive. rewrite ZQ_cond, EM53. change (Zpos (2 ^ 52)) with (2 ^ 52). replace (s - 1074) with F by lia. rewrite pow2_succ by lia. replace (2 ^ 53) with (2 ^ 52 * 2 ^ 1) by reflexivity. rewrite (ZQ_mul (2 ^ 52) (2 ^ 1)). destruct neg; ring.
    + assert (LM : Z.log2 M < 53) by (apply Z.log2_lt_pow2; lia). assert (LM0 : 0 <= Z.log2 M) by apply Z.log2_nonneg.
      assert (LF : fexp 53 1024 (Z.log2 M + 1 + F) = F).
      { rewrite fexp_spec. destruct (Z.eq_dec s 0) as [Zs|Ns]; [lia|]. specialize (M2 ltac:(lia)). assert (52 <= Z.log2 M) by (apply Z.log2_le_pow2; lia). lia. }
      rewrite (shr_fexp_exact M F M 0); [|rewrite LF; lia|lia|lia|ring]. cbn [shr_m]. rewrite Z.add_0_r.
      assert (T : 2 ^ 2098 <=? M * 2 ^ s = negb (F <=? 1024 - 53)).
      { apply eq_true_iff_eq. rewrite negb_true_iff, Z.leb_le, Z.leb_gt. assert (P3 : 0 < 2 ^ s) by (apply Z.pow_pos_nonneg; lia). split.
        - intros H. assert (M * 2 ^ s < 2 ^ 53 * 2 ^ s) by (apply Z.mul_lt_mono_pos_r; lia). rewrite <- Z.pow_add_r in H0 by lia. assert (G : 2 ^ 2098 < 2 ^ (53 + s)) by (eapply Z.le_lt_trans; eauto). apply Z.pow_lt_mono_r_iff in G; lia.
        - intros H. specialize (M2 ltac:(lia)). assert (2 ^ 52 * 2 ^ s <= M * 2 ^ s) by (apply Z.mul_le_mono_nonneg_r; lia). rewrite <- Z.pow_add_r in H0 by lia. eapply Z.le_trans; [|exact H0]. apply Z.pow_le_mono_r; lia. }
      rewrite T. destruct M as [|p|p]; [lia| |lia]. destruct (Z.leb_spec F (1024 - 53)) as [H|H]; cbn [negb]; [|reflexivity].
      split.
      * unfold is_f64, valid_binary, bounded. apply andb_true_iff. split; [|apply Zle_is_le_bool; lia]. unfold canonical_mantissa. apply Zeq_is_eq_bool. rewrite digits_log2. exact LF.
      * cbn [value]. f_equal. rewrite ZQ_cond. replace (s - 1074) with F by lia. destruct neg; ring.
Qed.

(** f is the f64 nearest to q, or the infinity of its sign if q is too large *)
Definition correctly_rounded (f : float) (q : Qc) : Prop :=
  match rnd64 q with Some r => is_value f r | None => f = S754_infinity (Qnum q <? 0) end.

Lemma rnd64_zero : rnd64 0%Qc = Some 0%Qc.
Proof. apply rnd64_exact. exists 0, 0. splits; try lia. reflexivity. Qed.
Lemma Qnum_opp q : Qnum (- q)%Qc = - Qnum q.
Proof. assert (E : this (- q)%Qc = (- this q)%Q) by (cbn [Qcopp this Q2Qc]; rewrite Qred_opp; f_equal; apply (canon q)). rewrite E. reflexivity. Qed.
Lemma Qnum_pos A B K q : 0 < A -> 0 < B -> 0 <= K -> (q * ZQ B = ZQ A * pow2 (- K))%Qc -> 0 < Qnum q.
Proof.
  intros HA HB HK Q. assert (E : Qnum q * 2 ^ K * B = A * Zpos (Qden q)).
  { apply ZQ_inj. rewrite !ZQ_mul, <- (Qc_num_den q). pose proof (pow2_neg K ltac:(lia)) as P.
    transitivity ((q * ZQ B) * (ZQ (Zpos (Qden q)) * ZQ (2 ^ K)))%Qc; [ring|]. rewrite Q.
    transitivity (ZQ A * ZQ (Zpos (Qden q)) * (pow2 (- K) * ZQ (2 ^ K)))%Qc; [ring|]. rewrite P. ring. }
  assert (P2 : 0 < 2 ^ K) by (apply Z.pow_pos_nonneg; lia). destruct (Z.le_gt_cases (Qnum q) 0) as [L|]; auto. exfalso.
  assert (Qnum q * 2 ^ K <= 0) by (apply Z.mul_nonpos_nonneg; lia). assert (Qnum q * 2 ^ K * B <= 0) by (apply Z.mul_nonpos_nonneg; lia). lia.
Qed.
Lemma rounded_correct f (q : Qc) (neg : bool) : 0 < Qnum q -> rounded f (if neg then - q else q)%Qc neg -> correctly_rounded f (if neg then - q else q)%Qc.
Proof.
  intros H. unfold rounded, correctly_rounded. destruct (rnd64 _); auto. intros ->. f_equal. destruct neg; [rewrite Qnum_opp|]; symmetry; [apply Z.ltb_lt|apply Z.ltb_ge]; lia.
Qed.
(** an exact mantissa *)
Lemma round_aux_exactly neg m e : 0 < m -> e <= fexp 53 1024 (Z.log2 m + 1 + e) ->
  correctly_rounded (binary_round_aux 53 1024 neg m e loc_Exact) (ZQ (cond_Zopp neg m) * pow2 e)%Qc.
Proof.
  intros Hm He. set (K := Z.max 1074 (- e)). set (A := m * 2 ^ (e + K)). set (q := (ZQ m * pow2 e)%Qc).
  assert (HA : 0 < A) by (apply Z.mul_pos_pos; auto; apply Z.pow_pos_nonneg; lia).
  assert (Q : (q * ZQ 1 = ZQ A * pow2 (- K))%Qc). { unfold q, A. replace e with (- K + (e + K)) at 1 by lia. rewrite pow2_succ, ZQ_mul by lia. change (ZQ 1) with 1%Qc. ring. }
  assert (Eq : (ZQ (cond_Zopp neg m) * pow2 e = if neg then - q else q)%Qc) by (unfold q; rewrite ZQ_cond; destruct neg; ring). rewrite Eq.
  apply rounded_correct; [apply (Qnum_pos A 1 K); auto; lia|].
  apply (round_aux_correct neg A 1 K m e loc_Exact q); auto; try lia.
  - rewrite Z.mul_1_l. apply at_loc_exact. apply Z.pow_pos_nonneg; lia.
  - rewrite digits_nonneg by lia. destruct (Z.eqb_spec m 0); [lia|]. exact He.
Qed.
Lemma round_correct neg m e : correctly_rounded (binary_round 53 1024 neg m e) (ZQ (cond_Zopp neg (Zpos m)) * pow2 e)%Qc.
Proof.
  unfold binary_round. destruct (shl_align m e (fexp 53 1024 (Zpos (digits2_pos m) + e))) as [mz ez] eqn:A.
  pose proof (shl_align_value _ _ _ _ _ A) as V. apply shl_align_spec in A as (A1 & A2). rewrite <- (value_sign neg _ _ _ _ V).
  apply round_aux_exactly; [lia|]. assert (Z.log2 (Zpos mz) + ez = Z.log2 (Zpos m) + e) by (apply log2_same; auto; lia).
  replace (Z.log2 (Zpos mz) + 1 + ez) with (Z.log2 (Zpos m) + 1 + e) by lia. rewrite digits_log2 in A1. lia.
Qed.
Lemma normalize_correct m e sz : correctly_rounded (binary_normalize 53 1024 m e sz) (ZQ m * pow2 e)%Qc.
Proof.
  destruct m as [|m|m].
  - cbn [binary_normalize]. replace (ZQ 0 * pow2 e)%Qc with 0%Qc by (change (ZQ 0) with 0%Qc; ring). unfold correctly_rounded. rewrite rnd64_zero. split; reflexivity.
  - apply (round_correct false m e).
  - apply (round_correct true m e).
Qed.
Lemma value_correct x q : is_value x q -> correctly_rounded x q.
Proof. intros H. unfold correctly_rounded. rewrite (rnd64_exact q (value_fits x q H)). exact H. Qed.

Lemma add_correct x y a b : is_value x a -> is_value y b -> correctly_rounded (f_add x y) (a + b)%Qc.
Proof.
  intros Hx Hy. pose proof Hx as (Vx & Wx). pose proof Hy as (Vy & Wy).
  destruct x as [s|s| |s m e]; simpl in Wx; try discriminate; injection Wx as <-;
  destruct y as [t|t| |t n d]; simpl in Wy; try discriminate; injection Wy as <-;
  try (apply value_correct; apply add_exact; auto; rewrite ?Qcplus_0_l, ?Qcplus_0_r; eapply value_fits; eauto; fail).
  unfold f_add, SFadd. set (ez := Z.min e d). pose proof (align_value s m e ez ltac:(lia)) as A1. pose proof (align_value t n d ez ltac:(lia)) as A2.
  rewrite <- A1, <- A2. rewrite <- Qcmult_plus_distr_l, <- ZQ_add. apply normalize_correct.
Qed.
Lemma sub_correct x y a b : is_value x a -> is_value y b -> correctly_rounded (f_sub x y) (a - b)%Qc.
Proof.
  intros Hx Hy. pose proof Hx as (Vx & Wx). pose proof Hy as (Vy & Wy).
  destruct x as [s|s| |s m e]; simpl in Wx; try discriminate; injection Wx as <-;
  destruct y as [t|t| |t n d]; simpl in Wy; try discriminate; injection Wy as <-;
  try (apply value_correct; apply sub_exact; auto; unfold Qcminus; rewrite ?Qcplus_0_l; try (apply fits_opp; eapply value_fits; eauto; fail); change (- 0)%Qc with 0%Qc; rewrite ?Qcplus_0_r; eapply value_fits; eauto; fail).
  unfold f_sub, SFsub. set (ez := Z.min e d). pose proof (align_value s m e ez ltac:(lia)) as A1. pose proof (align_value t n d ez ltac:(lia)) as A2.
  rewrite <- A1, <- A2. assert (E : forall u w p : Qc, (u * p - w * p = (u - w) * p)%Qc) by (intros; ring). rewrite E, <- ZQ_sub. apply normalize_correct.
Qed.
Lemma mul_correct x y a b : is_value x a -> is_value y b -> correctly_rounded (f_mul x y) (a * b)%Qc.
Proof.
  intros Hx Hy. pose proof Hx as (Vx & Wx). pose proof Hy as (Vy & Wy). assert (F0 : fits 0%Qc) by (exists 0, 0; splits; try lia; reflexivity).
  destruct x as [s|s| |s m e]; simpl in Wx; try discriminate; injection Wx as <-;
  destruct y as [t|t| |t n d]; simpl in Wy; try discriminate; injection Wy as <-;
  try (apply value_correct; apply mul_exact; auto; rewrite ?Qcmult_0_l, ?Qcmult_0_r; exact F0).
  apply bounded_spec in Vx as (X1 & X2 & X3). apply bounded_spec in Vy as (Y1 & Y2 & Y3).
  assert (E : (ZQ (cond_Zopp s (Zpos m)) * pow2 e * (ZQ (cond_Zopp t (Zpos n)) * pow2 d) = ZQ (cond_Zopp (xorb s t) (Zpos m * Zpos n)) * pow2 (e + d))%Qc) by (rewrite cond_mul, ZQ_mul, pow2_add; ring).
  rewrite E. unfold f_mul, SFmul. change (Zpos (m * n)) with (Zpos m * Zpos n). apply round_aux_exactly; try lia.
  pose proof (log2_mul_ge (Zpos m) (Zpos n) ltac:(lia) ltac:(lia)) as H. pose proof (Z.log2_nonneg (Zpos m)) as H1. pose proof (Z.log2_nonneg (Zpos n)) as H2.
  rewrite fexp_spec in *. clear -X1 X2 Y1 Y2 H H1 H2. set (P := Z.log2 (Zpos m * Zpos n)) in *. lia.
Qed.

Lemma new_location_ok W R m : 0 <= R < W -> at_loc (m * W + R) W m (new_location W R).
Proof.
  intros B. exists R. splits; auto; try lia. unfold new_location, new_location_even, new_location_odd.
  assert (Z0 : Zeq_bool R 0 = (R =? 0)) by (apply eq_true_iff_eq; rewrite Z.eqb_eq; symmetry; apply Zeq_is_eq_bool).
  destruct (Z.even W) eqn:Ev; cbv beta; rewrite Z0; destruct (Z.eqb_spec R 0) as [->|N]; auto; split; try lia; auto.
  assert (Od : 2 * R <> W) by (intros <-; rewrite Z.even_mul in Ev; discriminate Ev).
  assert (Od2 : 2 * R + 1 <= W -> 2 * R < W) by lia.
  destruct (Z.compare_spec (2 * R + 1) W); [apply Z.compare_lt_iff; lia|apply Z.compare_lt_iff; lia|apply Z.compare_gt_iff; lia].
Qed.
Lemma quotient_correct neg m e n d : let q := (ZQ (Zpos m) * pow2 e / (ZQ (Zpos n) * pow2 d))%Qc in
  correctly_rounded (round_quotient neg m e n d) (if neg then - q else q)%Qc.
Proof.
  intros q0. assert (Nn : ZQ (Zpos n) <> 0%Qc) by (rewrite ZQ_eq0; lia). pose proof (pow2_nz d) as Nd.
  unfold round_quotient, SFdiv_core_binary. cbn [Zdigits2]. rewrite !digits_log2.
  set (F1 := fexp 53 1024 (Z.log2 (Zpos m) + 1 + e - (Z.log2 (Zpos n) + 1 + d))). set (e' := Z.min F1 (e - d)).
  assert (Hm' : match e - d - e' with Z0 => Zpos m | Zpos _ => Z.shiftl (Zpos m) (e - d - e') | Zneg _ => 0 end = Zpos m * 2 ^ (e - d - e')).
  { destruct (e - d - e') as [|p|p] eqn:D; [lia| |lia]. rewrite Z.shiftl_mul_pow2 by lia. reflexivity. }
  rewrite Hm'. clear Hm'. set (N := Zpos m * 2 ^ (e - d - e')).
  assert (P1 : 0 < 2 ^ (e - d - e')) by (apply Z.pow_pos_nonneg; lia). assert (HN : 0 < N) by (apply Z.mul_pos_pos; lia).
  pose proof (Z.div_mod N (Zpos n) ltac:(lia)) as DM. pose proof (Z.mod_pos_bound N (Zpos n) ltac:(lia)) as MB. pose proof (Z.div_pos N (Zpos n) ltac:(lia) ltac:(lia)) as DP.
  assert (HD : Z.div_eucl N (Zpos n) = (N / Zpos n, N mod Zpos n)) by (unfold Z.div, Z.modulo; destruct (Z.div_eucl N (Zpos n)); reflexivity). rewrite HD.
  set (Q := N / Zpos n) in *. set (R := N mod Zpos n) in *.
  set (K := Z.max 1074 (- e')). set (G := 2 ^ (e' + K)). assert (HG : 0 < G) by (apply Z.pow_pos_nonneg; lia).
  assert (HQ : (q0 * ZQ (Zpos n) = ZQ (N * G) * pow2 (- K))%Qc).
  { unfold q0, N, G. rewrite !ZQ_mul. transitivity (ZQ (Zpos m) * (pow2 e / pow2 d))%Qc; [field; auto|].
    rewrite <- !Qcmult_assoc. f_equal. apply (Qc_cancel _ _ (pow2 d)); auto. transitivity (pow2 e); [field; auto|].
    replace e with (- K + (e' + K) + d + (e - d - e')) at 1 by lia. rewrite (pow2_succ _ (e - d - e')), (pow2_add _ d), (pow2_succ _ (e' + K)) by lia. ring. }
  assert (HA : 0 < N * G) by (apply Z.mul_pos_pos; auto).
  apply rounded_correct; [apply (Qnum_pos (N * G) (Zpos n) K); auto; lia|].
  apply (round_aux_correct neg (N * G) (Zpos n) K Q e' _ q0); auto; try lia.
  - fold G. apply at_loc_scale; auto. replace N with (Q * Zpos n + R) by (rewrite DM; ring). apply new_location_ok. lia.
  - rewrite digits_nonneg by auto. assert (LN : Z.log2 N = Z.log2 (Zpos m) + (e - d - e')) by (unfold N; rewrite Z.log2_mul_pow2 by lia; lia).
    assert (HF1 : F1 = Z.max (Z.log2 (Zpos m) + 1 + e - (Z.log2 (Zpos n) + 1 + d) - 53) (-1074)) by reflexivity. assert (He1 : e' <= F1) by (unfold e'; lia).
    destruct (Z.eqb_spec Q 0) as [ZQ0|NQ].
    + assert (N < Zpos n) by lia. assert (Z.log2 N <= Z.log2 (Zpos n)) by (apply Z.log2_le_mono; lia). rewrite fexp_spec. lia.
    + assert (LQ : Z.log2 N <= Z.log2 (Zpos n) + Z.log2 Q + 1).
      { assert (U1 : N < Zpos n * (Q + 1)) by lia. pose proof (Z.log2_spec Q ltac:(lia)) as [_ U2]. pose proof (Z.log2_spec (Zpos n) ltac:(lia)) as [_ U3]. unfold Z.succ in *.
        pose proof (Z.log2_nonneg Q). pose proof (Z.log2_nonneg (Zpos n)).
        assert (U4 : Zpos n * (Q + 1) <= 2 ^ (Z.log2 (Zpos n) + 1) * 2 ^ (Z.log2 Q + 1)) by (apply Z.mul_le_mono_nonneg; lia). rewrite <- Z.pow_add_r in U4 by lia.
        assert (U5 : N < 2 ^ (Z.log2 (Zpos n) + 1 + (Z.log2 Q + 1))) by lia. apply Z.log2_lt_pow2 in U5; lia. }
      rewrite fexp_spec. lia.
Qed.
Lemma div_correct x y a b : is_value x a -> is_value y b -> b <> 0%Qc -> correctly_rounded (f_div x y) (a / b)%Qc.
Proof.
  intros Hx Hy Hb. pose proof Hx as (Vx & Wx). pose proof Hy as (Vy & Wy).
  destruct x as [s|s| |s m e]; simpl in Wx; try discriminate; injection Wx as <-;
  destruct y as [t|t| |t n d]; simpl in Wy; try discriminate; injection Wy as <-; try congruence.
  { apply value_correct. apply div_exact; auto. replace (0 / (ZQ (cond_Zopp t (Zpos n)) * pow2 d))%Qc with 0%Qc by (unfold Qcdiv; ring). exists 0, 0. splits; try lia. reflexivity. }
  assert (Nm : ZQ (Zpos n) <> 0%Qc) by (rewrite ZQ_eq0; lia). pose proof (pow2_nz d) as Nd.
  assert (Sg : (ZQ (cond_Zopp s (Zpos m)) * pow2 e / (ZQ (cond_Zopp t (Zpos n)) * pow2 d) =
    (if xorb s t then - (ZQ (Zpos m) * pow2 e / (ZQ (Zpos n) * pow2 d)) else ZQ (Zpos m) * pow2 e / (ZQ (Zpos n) * pow2 d)))%Qc).
  { destruct s, t; simpl; change (Zneg m) with (- Zpos m); change (Zneg n) with (- Zpos n); rewrite ?ZQ_opp; field; splits; auto;
      try (intros Z; apply Nm; rewrite <- (Qcopp_involutive (ZQ (Zpos n))), Z; reflexivity). }
  rewrite Sg. exact (quotient_correct (xorb s t) m e n d).
Qed.
