(** Bounds for the rounding errors of f64 operations and of sums of products. *)
From Coq Require Import List ZArith Lia Bool PeanoNat.
From Coq Require Import QArith Qcanon Qcabs.
From Coq Require Import Floats.SpecFloat.
From Verif Require Import Base Vec Scalars Matrix ZQ QcTac F64 F64Exact F64Round F64Correct.
Import ListNotations.
Close Scope Q_scope. Close Scope Qc_scope.
Local Open Scope Z_scope.

(** half the distance from 1 to the next f64, and half the smallest positive f64 *)
Definition half_ulp : Qc := pow2 (-53).
Definition half_min : Qc := pow2 (-1075).

Lemma pow2_gt0 e : (0 < pow2 e)%Qc.
Proof.
  destruct (Z.le_gt_cases 0 e) as [H|H].
  - rewrite pow2_pos by auto. change 0%Qc with (ZQ 0). apply ZQ_lt. apply Z.pow_pos_nonneg; lia.
  - pose proof (pow2_neg (- e) ltac:(lia)) as P. rewrite Z.opp_involutive in P.
    assert (G : (0 < ZQ (2 ^ (- e)))%Qc) by (change 0%Qc with (ZQ 0); apply ZQ_lt; apply Z.pow_pos_nonneg; lia).
    destruct (Qclt_le_dec 0 (pow2 e)) as [|N]; auto. exfalso. generalize dependent (ZQ (2 ^ (- e))). generalize dependent (pow2 e). intros x N y E G. qcnra.
Qed.

Ltac inverse_power n := let P := fresh in pose proof (pow2_neg n ltac:(lia)) as P; let m := eval cbv in (- n)%Z in change (- n)%Z with m in P; rewrite P; clear P.

(** the error is at most half_ulp times the number, or half_min *)
Lemma rnd64_error q r : rnd64 q = Some r -> (Qcabs (q - r) <= half_ulp * Qcabs q \/ (Qcabs (q - r) <= half_min /\ Qcabs q < pow2 (-1021)))%Qc.
Proof.
  intros E. apply rnd64_parts in E as (-> & _). set (d := Zpos (Qden q)) in *. set (n := Z.abs (Qnum q)) in *.
  assert (Hn : 0 <= n) by (unfold n; lia). assert (Hd : 0 < d) by (unfold d; lia).
  pose proof (round_s n d) as S0. pose proof (round_below n d Hn Hd) as B. pose proof (round_above n d Hn Hd) as A.
  pose proof (scaled_distance q (Z.sgn (Qnum q) * round_mant n d) (round_exp n d) S0) as D1. fold d in D1.
  pose proof (scaled_distance q 0 0 ltac:(lia)) as D0. fold d in D0. rewrite Z.mul_0_l, Z.mul_0_r, Z.sub_0_r, Z.abs_mul, (Z.abs_eq (2 ^ 1074)) in D0 by (apply Z.pow_nonneg; lia). fold n in D0.
  replace (q - ZQ 0 * pow2 (0 - 1074))%Qc with q in D0 by (change (ZQ 0) with 0%Qc; ring).
  pose proof (scale_pos q) as K. fold d in K.
  assert (G : forall Y, Z.abs (Qnum q * 2 ^ 1074 - d * (Z.sgn (Qnum q) * Y)) <= Z.abs (n * 2 ^ 1074 - d * Y)).
  { intros Y. rewrite <- (sgn_scale (Qnum q)). rewrite abs_signed. destruct (Z.eqb_spec (Qnum q * 2 ^ 1074) 0) as [Q|Q]; [lia|]. rewrite abs_scale. fold n. lia. }
  assert (Hb : 0 < d * 2 ^ round_exp n d) by (apply Z.mul_pos_pos; auto; apply Z.pow_pos_nonneg; lia).
  destruct (nearest_even_spec (n * 2 ^ 1074) (d * 2 ^ round_exp n d) Hb) as (N1 & _). cbv zeta in N1. change (nearest_even (n * 2 ^ 1074) (d * 2 ^ round_exp n d)) with (round_mant n d) in N1.
  specialize (G (round_mant n d * 2 ^ round_exp n d)). rewrite (Z.mul_assoc (Z.sgn (Qnum q))) in G. rewrite <- (Z.mul_assoc d), (Z.mul_comm _ (round_mant n d)) in N1.
  set (err := Z.abs (Qnum q * 2 ^ 1074 - d * (Z.sgn (Qnum q) * round_mant n d * 2 ^ round_exp n d))) in *.
  fold err in G.
  set (k := ZQ (d * 2 ^ 1074)) in *. set (s := round_exp n d) in *.
  assert (Er : 2 * err <= d * 2 ^ s). { clear -G N1. lia. }
  destruct (Z.eq_dec s 0) as [Z0|NZ].
  - right. rewrite Z0 in *. split.
    + apply (scaled_le _ _ k K). rewrite D1. unfold half_min, k.
      apply (scaled_le _ _ (ZQ 2)); [reflexivity|]. rewrite <- ZQ_mul.
      assert (E2 : (pow2 (-1075) * ZQ (d * 2 ^ 1074) * ZQ 2 = ZQ d)%Qc).
      { rewrite ZQ_mul. transitivity (ZQ d * (pow2 (- 1075) * (ZQ (2 ^ 1074) * ZQ 2)))%Qc; [ring|]. rewrite <- ZQ_mul. change 2 with (2 ^ 1) at 2. rewrite <- Z.pow_add_r by lia. change (1074 + 1) with 1075. inverse_power 1075. ring. }
      rewrite E2. apply ZQ_le. clear -Er. change (2 ^ 0) with 1 in Er. lia.
    + destruct (Qclt_le_dec (Qcabs q) (pow2 (-1021))) as [|C]; auto. exfalso.
      apply (scaled_le _ _ k K) in C. rewrite D0 in C. unfold k in C. rewrite ZQ_mul in C.
      assert (E2 : (pow2 (-1021) * (ZQ d * ZQ (2 ^ 1074)) = ZQ (d * 2 ^ 53))%Qc).
      { rewrite ZQ_mul. replace 1074 with (53 + 1021) by lia. rewrite Z.pow_add_r, ZQ_mul by lia. transitivity (ZQ d * ZQ (2 ^ 53) * (pow2 (-1021) * ZQ (2 ^ 1021)))%Qc; [ring|]. inverse_power 1021. ring. }
      rewrite E2 in C. apply (proj1 (ZQ_le _ _)) in C. change (0 + 53) with 53 in A. clear -A C. lia.
  - left. specialize (B ltac:(lia)). apply (scaled_le _ _ k K). rewrite <- Qcmult_assoc, D0, D1.
    apply (scaled_le _ _ (ZQ (2 ^ 53))); [reflexivity|]. unfold half_ulp.
    assert (E2 : (pow2 (-53) * ZQ (n * 2 ^ 1074) * ZQ (2 ^ 53) = ZQ (n * 2 ^ 1074))%Qc) by (transitivity (ZQ (n * 2 ^ 1074) * (pow2 (-53) * ZQ (2 ^ 53)))%Qc; [ring|inverse_power 53; ring]).
    rewrite E2, <- ZQ_mul. apply ZQ_le. rewrite Z.pow_add_r in B by lia. rewrite Z.mul_assoc in B. clear -B Er.
    generalize dependent (n * 2 ^ 1074). generalize dependent (d * 2 ^ s). intros. lia.
Qed.

Lemma half_ulp_pos : (0 < half_ulp)%Qc. Proof. apply pow2_gt0. Qed.
Lemma half_min_pos : (0 < half_min)%Qc. Proof. apply pow2_gt0. Qed.

Lemma rnd64_error_sum q r : rnd64 q = Some r -> (Qcabs (q - r) <= half_ulp * Qcabs q + half_min)%Qc.
Proof.
  intros E. pose proof half_ulp_pos as U. pose proof half_min_pos as M. pose proof (Qcabs_nonneg q) as N.
  assert (P : (0 <= half_ulp * Qcabs q)%Qc) by (generalize dependent (Qcabs q); generalize dependent half_ulp; intros; qcnra).
  destruct (rnd64_error q r E) as [H|(H & _)]; generalize dependent (half_ulp * Qcabs q)%Qc; generalize dependent (Qcabs (q - r)); intros; qclra.
Qed.

(** multiples of the smallest positive f64 *)
Definition whole (q : Qc) : Prop := exists z, q = (ZQ z * pow2 (-1074))%Qc.
Lemma fits_whole q : fits q -> whole q.
Proof.
  intros (M & E & _ & HE & ->). exists (M * 2 ^ (E + 1074)). rewrite ZQ_mul. replace E with (-1074 + (E + 1074)) at 1 by lia. rewrite pow2_succ by lia. ring.
Qed.
Lemma whole_add a b : whole a -> whole b -> whole (a + b)%Qc.
Proof. intros (x & ->) (y & ->). exists (x + y). rewrite ZQ_add. ring. Qed.
Lemma whole_sub a b : whole a -> whole b -> whole (a - b)%Qc.
Proof. intros (x & ->) (y & ->). exists (x - y). rewrite ZQ_sub. ring. Qed.
Lemma whole_small q : whole q -> (Qcabs q < pow2 (-1021))%Qc -> fits q.
Proof.
  intros (z & ->) H. exists z, (-1074). splits; try lia; [|reflexivity].
  rewrite Qcabs_Qcmult, Qcabs_ZQ in H. rewrite (Qcabs_pos (pow2 (-1074))) in H by (apply Qclt_le_weak; apply pow2_gt0).
  replace (-1021) with (-1074 + 53) in H by lia. rewrite pow2_succ in H by lia. rewrite Qcmult_comm in H.
  destruct (Z.lt_ge_cases (Z.abs z) (2 ^ 53)) as [|G]; auto. exfalso. apply (proj2 (ZQ_le _ _)) in G. pose proof (pow2_gt0 (-1074)) as P.
  generalize dependent (pow2 (-1074)). generalize dependent (ZQ (Z.abs z)). generalize dependent (ZQ (2 ^ 53)). intros a b L p H P. qcnra.
Qed.
Lemma rnd64_error_whole q r : whole q -> rnd64 q = Some r -> (Qcabs (q - r) <= half_ulp * Qcabs q)%Qc.
Proof.
  intros W E. destruct (rnd64_error q r E) as [H|(_ & H)]; auto.
  pose proof (rnd64_exact q (whole_small q W H)) as X. rewrite E in X. injection X as ->.
  unfold Qcminus. rewrite Qcplus_opp_r, (Qcabs_pos 0%Qc) by apply Qcle_refl. pose proof half_ulp_pos. pose proof (Qcabs_nonneg q).
  generalize dependent (Qcabs q). generalize dependent half_ulp. intros. qcnra.
Qed.

(** ** sums of products *)
Definition finite (x : float) : Prop := exists q, is_value x q.

Lemma correct_cases f q : correctly_rounded f q -> (exists r, rnd64 q = Some r /\ is_value f r) \/ value f = None.
Proof. unfold correctly_rounded. destruct (rnd64 q) as [r|]; [left; eauto|intros ->; right; reflexivity]. Qed.

Lemma f_add_none x y : value x = None \/ value y = None -> value (f_add x y) = None.
Proof.
  intros H. destruct x as [s|s| |s m e], y as [t|t| |t n d]; cbn in H; destruct H as [H|H]; try discriminate H;
    unfold f_add; simpl; auto; destruct (Bool.eqb _ _); auto.
Qed.

Lemma value_none x q : is_value x q -> value x <> None.
Proof. intros (_ & E). congruence. Qed.

Local Open Scope Qc_scope.

Lemma abs_split (a b c : Qc) : Qcabs (a - c) <= Qcabs (a - b) + Qcabs (b - c).
Proof. replace (a - c) with ((a - b) + (b - c)) by ring. apply Qcabs_triangle. Qed.

Lemma mul_le_l (k a b : Qc) : 0 < k -> a <= b -> k * a <= k * b.
Proof. intros Hk H. rewrite !(Qcmult_comm k). apply Qcmult_le_compat_r; auto. apply Qclt_le_weak; auto. Qed.

(** what one step of the sum does to the error *)
Lemma step_bound (u h e0 T0 S s p s' ab : Qc) :
  0 < u -> 0 < h ->
  Qcabs (S - s) <= e0 -> Qcabs S <= T0 -> Qcabs (ab - p) <= u * Qcabs ab + h -> Qcabs ((s + p) - s') <= u * Qcabs (s + p) ->
  Qcabs ((S + ab) - s') <= (1 + u) * e0 + u * T0 + (u * (1 + u) + u) * Qcabs ab + (1 + u) * h.
Proof.
  intros Hu Hh H1 H2 H3 H4.
  assert (A1 : Qcabs ((S + ab) - s') <= Qcabs ((S + ab) - (s + p)) + Qcabs ((s + p) - s')) by apply abs_split.
  assert (A2 : Qcabs ((S + ab) - (s + p)) <= Qcabs (S - s) + Qcabs (ab - p)).
  { replace ((S + ab) - (s + p)) with ((S - s) + (ab - p)) by ring. apply Qcabs_triangle. }
  assert (A3 : Qcabs (s + p) <= Qcabs ((S + ab) - (s + p)) + Qcabs (S + ab)).
  { replace (s + p) with (- ((S + ab) - (s + p)) + (S + ab)) at 1 by ring. eapply Qcle_trans; [apply Qcabs_triangle|]. rewrite Qcabs_opp. apply Qcle_refl. }
  assert (A4 : Qcabs (S + ab) <= Qcabs S + Qcabs ab) by apply Qcabs_triangle.
  set (qr := Qcabs ((S + ab) - s')) in *. set (qd := Qcabs ((S + ab) - (s + p))) in *. set (qt := Qcabs ((s + p) - s')) in *.
  set (qSs := Qcabs (S - s)) in *. set (qabp := Qcabs (ab - p)) in *. set (qsp := Qcabs (s + p)) in *. set (qSab := Qcabs (S + ab)) in *. set (qS := Qcabs S) in *. set (qab := Qcabs ab) in *.
  clearbody qr qd qt qSs qabp qsp qSab qS qab.
  assert (M1 : qd <= e0 + u * qab + h) by (clear -A2 H1 H3; qclra).
  assert (M2 : qsp <= e0 + u * qab + h + T0 + qab) by (clear -A3 A4 M1 H2; qclra).
  assert (M3 : u * qsp <= u * (e0 + u * qab + h + T0 + qab)) by (apply mul_le_l; auto).
  assert (M4 : qr <= e0 + u * qab + h + u * (e0 + u * qab + h + T0 + qab)) by (clear -A1 M1 H4 M3; qclra).
  eapply Qcle_trans; [exact M4|]. clear. qclra.
Qed.

Definition power (x : Qc) (n : nat) : Qc := Qcpower x n.
Lemma power_S x n : power x (S n) = x * power x n.
Proof. reflexivity. Qed.
Lemma power_ge1 u n : 0 < u -> 1 <= power (1 + u) n.
Proof.
  intros Hu. induction n as [|n IH]; [apply Qcle_refl|]. rewrite power_S. set (x := power (1 + u) n) in *. clearbody x. qcnra.
Qed.

Lemma growth (u h e T ab : Qc) (n : nat) : 0 < u -> 0 < h -> 0 <= ab -> 0 <= T -> (1 <= n)%nat ->
  e = (power (1 + u) n - 1) * T + ZQ (Z.of_nat n) * h * power (1 + u) n ->
  (1 + u) * e + u * T + (u * (1 + u) + u) * ab + (1 + u) * h <= (power (1 + u) (S n) - 1) * (T + ab) + ZQ (Z.of_nat (S n)) * h * power (1 + u) (S n).
Proof.
  intros Hu Hh Hab HT Hn ->. destruct n as [|n]; [lia|]. replace (ZQ (Z.of_nat (S (S n)))) with (ZQ (Z.of_nat (S n)) + 1) by (rewrite (Nat2Z.inj_succ (S n)); unfold Z.succ; rewrite ZQ_add; reflexivity).
  rewrite !power_S. pose proof (power_ge1 u n Hu) as P. set (w := power (1 + u) n) in *. set (N := ZQ (Z.of_nat (S n))). clearbody w N.
  assert (E1 : (u * (1 + u) + u) * ab <= ((1 + u) * ((1 + u) * w) - 1) * ab).
  { apply Qcmult_le_compat_r; auto. assert (u * w >= u) by qcnra. assert (u * u * w >= u * u) by (assert (0 < u * u) by qcnra; set (v := u * u) in *; clearbody v; qcnra). clear -P H H0. qclra. }
  assert (E2 : (1 + u) * h <= h * ((1 + u) * ((1 + u) * w))).
  { assert (X : 1 <= (1 + u) * w) by (clear -P Hu; qcnra). set (y := (1 + u) * w) in *. clearbody y. assert (h <= h * y) by (clear -X Hh; qcnra).
    replace (h * ((1 + u) * y)) with ((1 + u) * (h * y)) by ring. apply mul_le_l; auto. clear -Hu. qclra. }
  eapply Qcle_trans with ((1 + u) * (((1 + u) * w - 1) * T + N * h * ((1 + u) * w)) + u * T + ((1 + u) * ((1 + u) * w) - 1) * ab + h * ((1 + u) * ((1 + u) * w))).
  - set (a := (1 + u) * (((1 + u) * w - 1) * T + N * h * ((1 + u) * w)) + u * T). clearbody a. clear -E1 E2. qclra.
  - clear. match goal with |- ?a <= ?b => replace b with a by ring end. apply Qcle_refl.
Qed.

(** the sum of the products x l * y l, from left to right starting from zero *)
Section Sums.
  Variables (x y : nat -> float) (a b : nat -> Qc).

  Definition exact_sum (n : nat) : Qc := sumf n (fun l => a l * b l).
  Definition absolute_sum (n : nat) : Qc := sumf n (fun l => Qcabs (a l) * Qcabs (b l)).

  Lemma absolute_sum_ge n : 0 <= absolute_sum n /\ Qcabs (exact_sum n) <= absolute_sum n.
  Proof.
    induction n as [|n (I1 & I2)].
    - split; [apply Qcle_refl|]. unfold exact_sum, absolute_sum. cbn [sumf]. rewrite Qcabs_pos; apply Qcle_refl.
    - unfold exact_sum, absolute_sum in *. cbn [sumf].
      set (E := sumf n (fun l => a l * b l)) in *. set (T := sumf n (fun l => Qcabs (a l) * Qcabs (b l))) in *. clearbody E T.
      change (radd T (Qcabs (a n) * Qcabs (b n))) with (T + Qcabs (a n) * Qcabs (b n)). change (radd E (a n * b n)) with (E + a n * b n).
      rewrite <- Qcabs_Qcmult. pose proof (Qcabs_nonneg (a n * b n)) as N. pose proof (Qcabs_triangle E (a n * b n)) as Tr. split; qclra.
  Qed.

  Definition bound (n : nat) : Qc := (power (1 + half_ulp) n - 1) * absolute_sum n + ZQ (Z.of_nat n) * half_min * power (1 + half_ulp) n.

  Lemma sum_error n : (forall l, (l < n)%nat -> is_value (x l) (a l) /\ is_value (y l) (b l)) ->
    let s := sumf n (fun l => rmul (x l) (y l)) in value s = None \/ exists v, is_value s v /\ Qcabs (exact_sum n - v) <= bound n.
  Proof.
    induction n as [|n IH]; intros H; cbv zeta.
    - right. exists 0. split; [split; reflexivity|]. vm_compute. discriminate.
    - destruct (H n) as (Hx & Hy); [lia|]. cbn [sumf].
      pose proof (mul_correct _ _ _ _ Hx Hy) as C. apply correct_cases in C as [(p & Ep & Vp)|C]; [|left; apply f_add_none; right; exact C].
      destruct IH as [I|(v & Vs & I)]; [intros; apply H; lia|left; apply f_add_none; left; exact I|].
      change (radd ?u ?w) with (f_add u w). set (s := sumf n (fun l => rmul (x l) (y l))) in *.
      pose proof (add_correct _ _ _ _ Vs Vp) as D. apply correct_cases in D as [(r & Er & Vr)|D]; [|left; exact D].
      right. exists r. split; [exact Vr|].
      assert (W : whole (v + p)) by (apply whole_add; eapply fits_whole, value_fits; eauto).
      pose proof (rnd64_error_sum _ _ Ep) as E1. pose proof (rnd64_error_whole _ _ W Er) as E2. pose proof (absolute_sum_ge n) as (T0 & T1).
      pose proof half_ulp_pos as Hu. pose proof half_min_pos as Hh.
      unfold bound in *. unfold exact_sum, absolute_sum in *. cbn [sumf]. change (radd ?u ?w) with (u + w). rewrite <- Qcabs_Qcmult in *.
      destruct n as [|n].
      + assert (v = 0) as -> by (destruct Vs as (_ & Vs); injection Vs as <-; reflexivity). cbn [sumf] in *. clear I E2 T0 T1. change (@r0 Qc _) with 0. rewrite !Qcplus_0_l in *.
        assert (r = p) as -> by (rewrite (rnd64_exact p (value_fits _ _ Vp)) in Er; congruence).
        eapply Qcle_trans; [exact E1|]. rewrite power_S. change (power (1 + half_ulp) 0) with 1. change (ZQ (Z.of_nat 1)) with 1.
        set (q := Qcabs (a 0%nat * b 0%nat)). set (u := half_ulp) in *. set (h := half_min) in *. clearbody q u h. clear -Hu Hh. assert (0 < h * u) by qcnra. qclra.
      + set (n' := Datatypes.S n) in *. assert (Hn : (1 <= n')%nat) by (unfold n'; lia). clearbody n'. clear n.
        eapply Qcle_trans; [eapply (step_bound half_ulp half_min); [exact Hu|exact Hh|exact I|exact T1|exact E1|exact E2]|].
        apply growth; auto. apply Qcabs_nonneg.
  Qed.
End Sums.

(** for fewer than 2^53 terms the bound is at most 2 n half_ulp times the sum of the absolute values, and 3 n half_min *)
Lemma power_small u n : 0 < u -> ZQ (Z.of_nat n) * u <= 1 -> power (1 + u) n <= 1 + ZQ (Z.of_nat n) * u + (ZQ (Z.of_nat n) * u) * (ZQ (Z.of_nat n) * u).
Proof.
  intros Hu. induction n as [|n IH]; intros H.
  - change (ZQ (Z.of_nat 0)) with 0. change (power (1 + u) 0) with 1. qclra.
  - replace (ZQ (Z.of_nat (S n))) with (ZQ (Z.of_nat n) + 1) in * by (rewrite Nat2Z.inj_succ; unfold Z.succ; rewrite ZQ_add; reflexivity).
    assert (HN : 0 <= ZQ (Z.of_nat n)) by (change 0 with (ZQ 0); apply ZQ_le; lia).
    rewrite power_S. set (N := ZQ (Z.of_nat n)) in *. clearbody N. assert (H1 : N * u <= 1) by qclra. specialize (IH H1). set (w := power (1 + u) n) in *. clearbody w.
    eapply Qcle_trans; [apply mul_le_l; [clear -Hu; qclra|exact IH]|].
    set (p := N * u) in *. assert (Hp : 0 <= p) by (unfold p; clear -HN Hu; qcnra).
    replace (N * u + u) with (p + u) by (unfold p; ring). replace ((N + 1) * u) with (p + u) by (unfold p; ring). clearbody p.
    assert (X : u * (p * p) <= u * p) by (apply mul_le_l; auto; clear -H1 Hp; qcnra).
    assert (Y : 0 <= u * p) by (clear -Hu Hp; qcnra). assert (V : 0 <= u * u) by (clear; qcnra).
    clear -X Y V. qclra.
Qed.

Lemma bound_small a b n : (Z.of_nat n <= 2 ^ 53)%Z -> bound a b n <= ZQ (2 * Z.of_nat n) * half_ulp * absolute_sum a b n + ZQ (3 * Z.of_nat n) * half_min.
Proof.
  intros H. unfold bound. destruct (absolute_sum_ge a b n) as (T0 & _). set (T := absolute_sum a b n) in *. clearbody T.
  assert (Hn : ZQ (Z.of_nat n) * half_ulp <= 1).
  { apply (scaled_le _ _ (ZQ (2 ^ 53))); [reflexivity|]. unfold half_ulp. rewrite <- Qcmult_assoc. inverse_power 53%Z. rewrite Qcmult_1_l, Qcmult_1_r. apply ZQ_le. exact H. }
  pose proof (power_small half_ulp n half_ulp_pos Hn) as P. rewrite !ZQ_mul. pose proof half_ulp_pos as Hu. pose proof half_min_pos as Hm.
  assert (HN : 0 <= ZQ (Z.of_nat n)) by (change 0 with (ZQ 0); apply ZQ_le; lia).
  change (ZQ 2) with (1 + 1). replace (ZQ 3) with (1 + 1 + 1) by (apply Qc_is_canon; reflexivity).
  set (N := ZQ (Z.of_nat n)) in *. set (u := half_ulp) in *. set (h := half_min) in *. set (w := power (1 + u) n) in *. clearbody N u h w.
  set (p := N * u) in *. assert (Hp : 0 <= p) by (unfold p; clear -HN Hu; qcnra).
  assert (W1 : w - 1 <= (1 + 1) * p) by (clear -P Hp Hn; assert (p * p <= p) by qcnra; qclra).
  assert (W2 : w <= 1 + 1 + 1) by (clear -W1 Hn; qclra).
  assert (A : (w - 1) * T <= (1 + 1) * p * T) by (apply Qcmult_le_compat_r; auto).
  assert (B : N * h * w <= N * h * (1 + 1 + 1)).
  { assert (HNh : 0 <= N * h) by (clear -HN Hm; qcnra). rewrite !(Qcmult_comm (N * h)). apply Qcmult_le_compat_r; auto. }
  unfold p in *. clear -A B. qclra.
Qed.

Lemma f_sub_none x y : value x = None \/ value y = None -> value (f_sub x y) = None.
Proof.
  intros H. destruct x as [s|s| |s m e], y as [t|t| |t n d]; cbn in H; destruct H as [H|H]; try discriminate H;
    unfold f_sub; simpl; auto; destruct (Bool.eqb _ _); auto.
Qed.

(** the difference of two products *)
Lemma difference_error x y z w (a b c d : Qc) : is_value x a -> is_value y b -> is_value z c -> is_value w d ->
  let f := f_sub (f_mul x y) (f_mul z w) in
  value f = None \/ exists v, is_value f v /\
    Qcabs ((a * b - c * d) - v) <= ((1 + half_ulp) * (1 + half_ulp) - 1) * (Qcabs (a * b) + Qcabs (c * d)) + (1 + 1) * (1 + half_ulp) * half_min.
Proof.
  intros Hx Hy Hz Hw. cbv zeta.
  pose proof (mul_correct _ _ _ _ Hx Hy) as C. apply correct_cases in C as [(p & Ep & Vp)|C]; [|left; apply f_sub_none; left; exact C].
  pose proof (mul_correct _ _ _ _ Hz Hw) as C. apply correct_cases in C as [(q & Eq & Vq)|C]; [|left; apply f_sub_none; right; exact C].
  pose proof (sub_correct _ _ _ _ Vp Vq) as D. apply correct_cases in D as [(r & Er & Vr)|D]; [|left; exact D].
  right. exists r. split; [exact Vr|].
  assert (W : whole (p - q)) by (apply whole_sub; eapply fits_whole, value_fits; eauto).
  pose proof (rnd64_error_sum _ _ Ep) as E1. pose proof (rnd64_error_sum _ _ Eq) as E2. pose proof (rnd64_error_whole _ _ W Er) as E3.
  pose proof half_ulp_pos as Hu. pose proof half_min_pos as Hh. set (u := half_ulp) in *. set (h := half_min) in *. clearbody u h.
  set (A := a * b) in *. set (B := c * d) in *. clearbody A B.
  assert (A1 : Qcabs ((A - B) - r) <= Qcabs ((A - B) - (p - q)) + Qcabs ((p - q) - r)) by apply abs_split.
  assert (A2 : Qcabs ((A - B) - (p - q)) <= Qcabs (A - p) + Qcabs (B - q)).
  { replace ((A - B) - (p - q)) with ((A - p) + (- (B - q))) by ring. eapply Qcle_trans; [apply Qcabs_triangle|]. rewrite Qcabs_opp. apply Qcle_refl. }
  assert (A3 : Qcabs (p - q) <= Qcabs ((A - B) - (p - q)) + Qcabs (A - B)).
  { replace (p - q) with (- ((A - B) - (p - q)) + (A - B)) at 1 by ring. eapply Qcle_trans; [apply Qcabs_triangle|]. rewrite Qcabs_opp. apply Qcle_refl. }
  assert (A4 : Qcabs (A - B) <= Qcabs A + Qcabs B).
  { unfold Qcminus. eapply Qcle_trans; [apply Qcabs_triangle|]. rewrite Qcabs_opp. apply Qcle_refl. }
  set (qr := Qcabs ((A - B) - r)) in *. set (qd := Qcabs ((A - B) - (p - q))) in *. set (qt := Qcabs ((p - q) - r)) in *. set (qa := Qcabs A) in *. set (qb := Qcabs B) in *.
  set (qap := Qcabs (A - p)) in *. set (qbq := Qcabs (B - q)) in *. set (qpq := Qcabs (p - q)) in *. set (qab := Qcabs (A - B)) in *.
  clearbody qr qd qt qa qb qap qbq qpq qab.
  assert (M1 : qd <= u * qa + u * qb + h + h) by (clear -A2 E1 E2; qclra).
  assert (M2 : qpq <= u * qa + u * qb + h + h + qa + qb) by (clear -A3 A4 M1; qclra).
  assert (M3 : u * qpq <= u * (u * qa + u * qb + h + h + qa + qb)) by (apply mul_le_l; auto).
  assert (M4 : qr <= u * qa + u * qb + h + h + u * (u * qa + u * qb + h + h + qa + qb)) by (clear -A1 M1 E3 M3; qclra).
  eapply Qcle_trans; [exact M4|]. clear. match goal with |- ?a <= ?b => replace b with a by ring end. apply Qcle_refl.
Qed.
