(** The operations of f64 are exact when the exact result is an f64 number: facts about the standard library's
    SpecFloat, which F64.v uses. *)
From Coq Require Import List ZArith Lia Bool PeanoNat.
From Coq Require Import QArith Qcanon.
From Coq Require Import Floats.SpecFloat.
From Verif Require Import Base Vec Scalars ZQ F64.
Import ListNotations.
Close Scope Q_scope. Close Scope Qc_scope.
Local Open Scope Z_scope.

(** ** the number an f64 stands for *)

(** 2^e *)
Definition pow2 (e : Z) : Qc := if e <? 0 then (1 / ZQ (2 ^ (- e)))%Qc else ZQ (2 ^ e).

(** the value of a finite f64; there is none for infinities and NaN *)
Definition value (x : float) : option Qc :=
  match x with
  | S754_zero _ => Some 0%Qc
  | S754_finite s m e => Some (ZQ (cond_Zopp s (Zpos m)) * pow2 e)%Qc
  | _ => None
  end.

(** a bit pattern of f64: the mantissa has 53 bits, or fewer at the smallest exponent *)
Definition is_f64 (x : float) : Prop := valid_binary 53 1024 x = true.

(** [x] is an f64 with value [q] *)
Definition is_value (x : float) (q : Qc) : Prop := is_f64 x /\ value x = Some q.

(** [q] is the value of some f64: an integer of at most 53 bits times a power of two in the range of exponents *)
Definition fits (q : Qc) : Prop :=
  exists M E, Z.abs M < 2 ^ 53 /\ -1074 <= E <= 971 /\ q = (ZQ M * pow2 E)%Qc.

(** ** powers of two *)
Lemma Qc_cancel (x y z : Qc) : z <> 0%Qc -> (x * z = y * z)%Qc -> x = y.
Proof.
  intros Hz E. replace x with (x * z / z)%Qc by (field; auto). rewrite E. field. auto.
Qed.

Lemma pow2_pos e : 0 <= e -> pow2 e = ZQ (2 ^ e).
Proof. intros H. unfold pow2. destruct (Z.ltb_spec e 0); [lia|reflexivity]. Qed.

Lemma ZQ_pow2_nz n : 0 <= n -> ZQ (2 ^ n) <> 0%Qc.
Proof. intros H E. change 0%Qc with (ZQ 0) in E. apply ZQ_inj in E. pose proof (Z.pow_pos_nonneg 2 n). lia. Qed.

Lemma pow2_neg e : 0 <= e -> (pow2 (- e) * ZQ (2 ^ e) = 1)%Qc.
Proof.
  intros H. unfold pow2. destruct (Z.ltb_spec (- e) 0) as [L|L].
  - rewrite Z.opp_involutive. field. apply ZQ_pow2_nz; auto.
  - assert (e = 0) as -> by lia. reflexivity.
Qed.

Lemma pow2_succ e n : 0 <= n -> pow2 (e + n) = (pow2 e * ZQ (2 ^ n))%Qc.
Proof.
  intros Hn. destruct (Z.le_gt_cases 0 e) as [He|He].
  - rewrite !pow2_pos by lia. rewrite Z.pow_add_r by lia. apply ZQ_mul.
  - destruct (Z.le_gt_cases 0 (e + n)) as [Hs|Hs].
    + rewrite (pow2_pos (e + n)) by auto.
      replace n with ((e + n) + (- e)) at 2 by lia. rewrite (Z.pow_add_r 2 (e + n) (- e)), ZQ_mul by lia.
      pose proof (pow2_neg (- e)) as P. rewrite Z.opp_involutive in P.
      replace (pow2 e * (ZQ (2 ^ (e + n)) * ZQ (2 ^ (- e))))%Qc with (ZQ (2 ^ (e + n)) * (pow2 e * ZQ (2 ^ (- e))))%Qc by ring.
      rewrite P by lia. ring.
    + pose proof (pow2_neg (- e)) as P. rewrite Z.opp_involutive in P.
      pose proof (pow2_neg (- (e + n))) as P'. rewrite Z.opp_involutive in P'.
      specialize (P ltac:(lia)). specialize (P' ltac:(lia)).
      replace (- e) with (- (e + n) + n) in P by lia. rewrite Z.pow_add_r, ZQ_mul in P by lia.
      set (u := ZQ (2 ^ (- (e + n)))) in *. set (w := ZQ (2 ^ n)) in *.
      assert (U : u <> 0%Qc) by (apply ZQ_pow2_nz; lia).
      apply (Qc_cancel _ _ u); auto. rewrite P'. rewrite <- P. ring.
Qed.

Lemma pow2_add a b : pow2 (a + b) = (pow2 a * pow2 b)%Qc.
Proof.
  destruct (Z.le_gt_cases 0 b) as [H|H].
  - rewrite pow2_succ by auto. rewrite (pow2_pos b) by auto. reflexivity.
  - pose proof (pow2_succ (a + b) (- b)) as P. replace (a + b + - b) with a in P by lia. rewrite P by lia.
    pose proof (pow2_neg (- b)) as Q. rewrite Z.opp_involutive in Q. specialize (Q ltac:(lia)).
    replace (pow2 (a + b) * ZQ (2 ^ (- b)) * pow2 b)%Qc with (pow2 (a + b) * (pow2 b * ZQ (2 ^ (- b))))%Qc by ring.
    rewrite Q. ring.
Qed.

Lemma pow2_nz e : pow2 e <> 0%Qc.
Proof.
  intros H. pose proof (pow2_add e (- e)) as P. rewrite H in P. replace (e + - e) with 0 in P by lia.
  rewrite Qcmult_0_l in P. discriminate P.
Qed.

(** equal numbers, at a common exponent *)
Lemma pow2_align m e M E : e <= E -> (ZQ m * pow2 e = ZQ M * pow2 E)%Qc -> m = M * 2 ^ (E - e).
Proof.
  intros H Q. replace E with (e + (E - e)) in Q at 1 by lia. rewrite pow2_succ in Q by lia.
  apply ZQ_inj. apply (Qc_cancel _ _ (pow2 e) (pow2_nz e)). rewrite Q. rewrite ZQ_mul. ring.
Qed.

(** ** lengths in bits *)
Lemma digits_log2 m : Zpos (digits2_pos m) = Z.log2 (Zpos m) + 1.
Proof.
  assert (D : digits2_pos m = Pos.size m) by (induction m; simpl; congruence).
  rewrite D. destruct m; simpl; lia.
Qed.

Lemma log2_shift m M n : 0 <= n -> 0 < M -> m = M * 2 ^ n -> Z.log2 m = Z.log2 M + n.
Proof. intros Hn HM ->. rewrite Z.log2_mul_pow2 by auto. lia. Qed.

Lemma log2_same m e M E : 0 < m -> 0 < M -> (ZQ m * pow2 e = ZQ M * pow2 E)%Qc -> Z.log2 m + e = Z.log2 M + E.
Proof.
  intros Hm HM Q. destruct (Z.le_gt_cases e E) as [H|H].
  - pose proof (pow2_align _ _ _ _ H Q) as P. apply log2_shift in P; auto; lia.
  - symmetry in Q. apply pow2_align in Q; [|lia]. apply log2_shift in Q; auto; lia.
Qed.

(** ** rounding an exactly representable number *)
Lemma iter_pos_iter {A} (f : A -> A) p : forall x, iter_pos f p x = Nat.iter (Pos.to_nat p) f x.
Proof.
  induction p as [p IH|p IH|]; intros x; simpl iter_pos.
  - rewrite !IH. rewrite Pos2Nat.inj_xI. replace (S (2 * Pos.to_nat p))%nat with (Pos.to_nat p + (Pos.to_nat p + 1))%nat by lia.
    unfold Nat.iter. rewrite !nat_rect_plus. reflexivity.
  - rewrite !IH. rewrite Pos2Nat.inj_xO. replace (2 * Pos.to_nat p)%nat with (Pos.to_nat p + Pos.to_nat p)%nat by lia.
    unfold Nat.iter. rewrite !nat_rect_plus. reflexivity.
  - reflexivity.
Qed.

Lemma shr_exact n : forall a, 0 < a ->
  Nat.iter n shr_1 (Build_shr_record (a * 2 ^ Z.of_nat n) false false) = Build_shr_record a false false.
Proof.
  induction n as [|n IH]; intros a Ha.
  - simpl. rewrite Z.mul_1_r. reflexivity.
  - cbn [Nat.iter nat_rect]. replace (a * 2 ^ Z.of_nat (S n)) with ((2 * a) * 2 ^ Z.of_nat n).
    2:{ rewrite Nat2Z.inj_succ, Z.pow_succ_r by lia. ring. }
    fold (Nat.iter n shr_1 (Build_shr_record ((2 * a) * 2 ^ Z.of_nat n) false false)). rewrite IH by lia.
    destruct a; try lia. reflexivity.
Qed.

Lemma shr_fexp_exact m e a n :
  fexp 53 1024 (Z.log2 m + 1 + e) - e = n -> 0 <= n -> 0 < a -> m = a * 2 ^ n ->
  shr_fexp 53 1024 m e loc_Exact = (Build_shr_record a false false, e + n).
Proof.
  intros Hn H0 Ha Hm. assert (Hp : 0 < m) by (subst m; apply Z.mul_pos_pos; auto; apply Z.pow_pos_nonneg; lia).
  unfold shr_fexp. assert (D : Zdigits2 m = Z.log2 m + 1) by (destruct m; try lia; apply digits_log2).
  rewrite D, Hn. simpl shr_record_of_loc. unfold shr. destruct n as [|p|p]; [|clear H0|lia].
  - rewrite Z.mul_1_r in Hm. subst a. rewrite Z.add_0_r. reflexivity.
  - f_equal. rewrite iter_pos_iter. rewrite Hm. rewrite <- (positive_nat_Z p). apply shr_exact. auto.
Qed.

Lemma fexp_spec e : fexp 53 1024 e = Z.max (e - 53) (-1074).
Proof. reflexivity. Qed.

Lemma round_aux_exact s m e M E :
  e <= fexp 53 1024 (Z.log2 m + 1 + e) -> 0 < m -> Z.abs M < 2 ^ 53 -> -1074 <= E <= 971 ->
  (ZQ m * pow2 e = ZQ M * pow2 E)%Qc ->
  exists m' e', binary_round_aux 53 1024 s m e loc_Exact = S754_finite s m' e' /\ bounded 53 1024 m' e' = true /\
    (ZQ (Zpos m') * pow2 e' = ZQ m * pow2 e)%Qc.
Proof.
  intros He Hm HM HE Q.
  assert (HM0 : 0 < M).
  { destruct (Z.le_gt_cases e E) as [H|H].
    - apply pow2_align in Q; auto. pose proof (Z.pow_pos_nonneg 2 (E - e)). nia.
    - symmetry in Q. apply pow2_align in Q; [|lia]. pose proof (Z.pow_pos_nonneg 2 (e - E)). nia. }
  pose proof (log2_same _ _ _ _ Hm HM0 Q) as HL.
  assert (HlM : Z.log2 M < 53) by (apply Z.log2_lt_pow2; lia).
  set (F := fexp 53 1024 (Z.log2 m + 1 + e)) in *.
  assert (HF : F <= E). { unfold F. rewrite fexp_spec. lia. }
  set (n := F - e).
  assert (Hn : 0 <= n) by lia.
  assert (Hd : exists a, 0 < a /\ m = a * 2 ^ n).
  { exists (M * 2 ^ (E - F)). split; [apply Z.mul_pos_pos; auto; apply Z.pow_pos_nonneg; lia|].
    rewrite <- Z.mul_assoc, <- Z.pow_add_r by lia. replace (E - F + n) with (E - e) by lia.
    apply pow2_align; auto; lia. }
  destruct Hd as (a & Ha & Hma).
  unfold binary_round_aux. rewrite (shr_fexp_exact m e a n) by (auto; unfold n, F; lia).
  cbn [shr_m loc_of_shr_record round_nearest_even].
  assert (Hla : Z.log2 a + n = Z.log2 m) by (symmetry; apply log2_shift; auto).
  assert (HFa : fexp 53 1024 (Z.log2 a + 1 + (e + n)) = F) by (unfold F; f_equal; lia).
  rewrite (shr_fexp_exact a (e + n) a 0); [|lia|lia|auto|ring].
  cbn [shr_m]. destruct a as [|a|a]; try lia.
  exists a, (e + n + 0).
  assert (Hle : Zle_bool (e + n + 0) (1024 - 53) = true) by (apply Zle_is_le_bool; lia).
  rewrite Hle. splits; auto.
  - unfold bounded. rewrite Hle, andb_true_r. unfold canonical_mantissa. rewrite digits_log2.
    apply Zeq_is_eq_bool. rewrite Z.add_0_r. rewrite HFa. lia.
  - rewrite Z.add_0_r. rewrite pow2_succ by auto. rewrite Hma, ZQ_mul. ring.
Qed.

Lemma shl_align_spec m e e' : forall m2 e2, shl_align m e e' = (m2, e2) ->
  e2 = Z.min e e' /\ Zpos m2 = Zpos m * 2 ^ (e - e2).
Proof.
  intros m2 e2. unfold shl_align. destruct (e' - e) as [|d|d] eqn:D; intros H; injection H as <- <-.
  - split; [lia|]. rewrite Z.sub_diag. lia.
  - split; [lia|]. rewrite Z.sub_diag. lia.
  - split; [lia|]. rewrite shift_pos_correct. rewrite Z.mul_comm. f_equal.
    replace (e - e') with (Zpos d) by lia. reflexivity.
Qed.

Lemma shl_align_value m e e' m2 e2 : shl_align m e e' = (m2, e2) -> (ZQ (Zpos m2) * pow2 e2 = ZQ (Zpos m) * pow2 e)%Qc.
Proof.
  intros H. apply shl_align_spec in H as (H1 & H2). rewrite H2.
  replace e with (e2 + (e - e2)) at 2 by lia. rewrite pow2_succ, ZQ_mul by lia. ring.
Qed.

Lemma round_exact s m e :
  fits (ZQ (Zpos m) * pow2 e)%Qc ->
  exists m' e', binary_round 53 1024 s m e = S754_finite s m' e' /\ bounded 53 1024 m' e' = true /\
    (ZQ (Zpos m') * pow2 e' = ZQ (Zpos m) * pow2 e)%Qc.
Proof.
  intros (M & E & HM & HE & Q). unfold binary_round.
  destruct (shl_align m e (fexp 53 1024 (Zpos (digits2_pos m) + e))) as [mz ez] eqn:A.
  pose proof (shl_align_value _ _ _ _ _ A) as V. apply shl_align_spec in A as (A1 & A2).
  destruct (round_aux_exact s (Zpos mz) ez M E) as (m' & e' & R1 & R2 & R3); auto; try lia.
  - assert (Z.log2 (Zpos mz) + ez = Z.log2 (Zpos m) + e) by (apply log2_same; auto; lia).
    replace (Z.log2 (Zpos mz) + 1 + ez) with (Z.log2 (Zpos m) + 1 + e) by lia. rewrite digits_log2 in A1. lia.
  - congruence.
  - exists m', e'. splits; auto. congruence.
Qed.

Lemma value_sign s m' e' m e : (ZQ (Zpos m') * pow2 e' = ZQ (Zpos m) * pow2 e)%Qc ->
  (ZQ (cond_Zopp s (Zpos m')) * pow2 e' = ZQ (cond_Zopp s (Zpos m)) * pow2 e)%Qc.
Proof.
  intros H. destruct s; simpl; auto.
  change (Zneg m') with (- Zpos m'). change (Zneg m) with (- Zpos m). rewrite !ZQ_opp.
  replace (- ZQ (Zpos m') * pow2 e')%Qc with (- (ZQ (Zpos m') * pow2 e'))%Qc by ring. rewrite H. ring.
Qed.

Lemma fits_opp q : fits q -> fits (- q)%Qc.
Proof. intros (M & E & HM & HE & ->). exists (- M), E. rewrite Z.abs_opp, ZQ_opp. splits; auto; try lia. ring. Qed.

Lemma normalize_exact m e sz :
  fits (ZQ m * pow2 e)%Qc -> is_value (binary_normalize 53 1024 m e sz) (ZQ m * pow2 e)%Qc.
Proof.
  intros F. destruct m as [|m|m]; simpl.
  - split; [reflexivity|]. simpl. f_equal. change (ZQ 0) with 0%Qc. ring.
  - destruct (round_exact false m e F) as (m' & e' & -> & B & V). split; [exact B|]. simpl. f_equal. exact V.
  - assert (F' : fits (ZQ (Zpos m) * pow2 e)%Qc).
    { apply fits_opp in F. change (Zneg m) with (- Zpos m) in F. rewrite ZQ_opp in F.
      replace (- (- ZQ (Zpos m) * pow2 e))%Qc with (ZQ (Zpos m) * pow2 e)%Qc in F by ring. auto. }
    destruct (round_exact true m e F') as (m' & e' & -> & B & V). split; [exact B|]. cbn [value]. f_equal.
    apply (value_sign true) in V. exact V.
Qed.

(** ** the operations *)
Lemma bounded_spec m e : bounded 53 1024 m e = true ->
  fexp 53 1024 (Z.log2 (Zpos m) + 1 + e) = e /\ -1074 <= e <= 971 /\ Z.log2 (Zpos m) < 53.
Proof.
  unfold bounded. intros H. apply andb_prop in H as (H1 & H2).
  apply Zle_is_le_bool in H2. apply Zeq_is_eq_bool in H1. rewrite digits_log2 in H1. rewrite fexp_spec in *. lia.
Qed.

Lemma value_fits x q : is_value x q -> fits q.
Proof.
  intros (V & H). destruct x as [s|s| |s m e]; simpl in H; try discriminate; injection H as <-.
  - exists 0, 0. splits; try lia. reflexivity.
  - apply bounded_spec in V as (V1 & V2 & V3). exists (cond_Zopp s (Zpos m)), e. splits; auto; try lia.
    apply Z.log2_lt_pow2 in V3; [|lia]. destruct s; simpl; lia.
Qed.

Lemma value_inj x q q' : is_value x q -> is_value x q' -> q = q'.
Proof. intros (_ & A) (_ & B). congruence. Qed.

Lemma ZQ_cond s m : ZQ (cond_Zopp s m) = (if s then (- ZQ m)%Qc else ZQ m).
Proof. destruct s; simpl; auto. apply ZQ_opp. Qed.

Lemma align_value s m e ez :
  ez <= e -> (ZQ (cond_Zopp s (Zpos (fst (shl_align m e ez)))) * pow2 ez = ZQ (cond_Zopp s (Zpos m)) * pow2 e)%Qc.
Proof.
  intros H. destruct (shl_align m e ez) as [m2 e2] eqn:A. simpl.
  pose proof (shl_align_value _ _ _ _ _ A) as V. apply shl_align_spec in A as (A & _).
  rewrite Z.min_r in A by auto. subst e2. apply value_sign. auto.
Qed.

Lemma opp_exact x a : is_value x a -> is_value (SFopp x) (- a)%Qc.
Proof.
  intros (V & H). destruct x as [s|s| |s m e]; simpl in H; try discriminate; injection H as <-.
  - split; [reflexivity|]. simpl. f_equal.
  - split; [exact V|]. simpl. f_equal. destruct s; simpl; rewrite ?ZQ_opp; [|rewrite <- (Z.opp_involutive (Zpos m)) at 1].
    + change (Zneg m) with (- Zpos m). rewrite ZQ_opp. ring.
    + change (Zneg m) with (- Zpos m). rewrite ZQ_opp, Z.opp_involutive. ring.
Qed.

Lemma add_exact x y a b : is_value x a -> is_value y b -> fits (a + b)%Qc -> is_value (f_add x y) (a + b)%Qc.
Proof.
  intros (Vx & Hx) (Vy & Hy) F.
  destruct x as [s|s| |s m e]; simpl in Hx; try discriminate; injection Hx as <-;
  destruct y as [t|t| |t n d]; simpl in Hy; try discriminate; injection Hy as <-.
  - assert (E : (0 + 0 = 0)%Qc) by ring. rewrite E. unfold f_add, SFadd. destruct (Bool.eqb s t); split; reflexivity.
  - unfold f_add, SFadd. split; [exact Vy|]. simpl. f_equal. ring.
  - unfold f_add, SFadd. split; [exact Vx|]. simpl. f_equal. ring.
  - unfold f_add, SFadd. set (ez := Z.min e d).
    pose proof (align_value s m e ez ltac:(lia)) as A1. pose proof (align_value t n d ez ltac:(lia)) as A2.
    rewrite <- A1, <- A2 in F |- *. rewrite <- Qcmult_plus_distr_l, <- ZQ_add in F |- *.
    apply normalize_exact. exact F.
Qed.

Lemma sub_exact x y a b : is_value x a -> is_value y b -> fits (a - b)%Qc -> is_value (f_sub x y) (a - b)%Qc.
Proof.
  intros (Vx & Hx) (Vy & Hy) F.
  destruct x as [s|s| |s m e]; simpl in Hx; try discriminate; injection Hx as <-;
  destruct y as [t|t| |t n d]; simpl in Hy; try discriminate; injection Hy as <-.
  - assert (E : (0 - 0 = 0)%Qc) by ring. rewrite E. unfold f_sub, SFsub. destruct (Bool.eqb s (negb t)); split; reflexivity.
  - unfold f_sub, SFsub. pose proof (opp_exact (S754_finite t n d) _ (conj Vy eq_refl)) as O. simpl in O.
    replace (0 - ZQ (cond_Zopp t (Zpos n)) * pow2 d)%Qc with (- (ZQ (cond_Zopp t (Zpos n)) * pow2 d))%Qc by ring. exact O.
  - unfold f_sub, SFsub. split; [exact Vx|]. simpl. f_equal. ring.
  - unfold f_sub, SFsub. set (ez := Z.min e d).
    pose proof (align_value s m e ez ltac:(lia)) as A1. pose proof (align_value t n d ez ltac:(lia)) as A2.
    rewrite <- A1, <- A2 in F |- *.
    assert (E : forall u w p : Qc, (u * p - w * p = (u - w) * p)%Qc) by (intros; ring).
    rewrite E, <- ZQ_sub in F |- *. apply normalize_exact. exact F.
Qed.

Lemma fits_cond (s : bool) (q : Qc) : fits (if s then (- q)%Qc else q) -> fits q.
Proof. destruct s; auto. intros F. apply fits_opp in F. replace q with (- - q)%Qc by ring. exact F. Qed.

Lemma round_aux_signed s m e : fits (ZQ (cond_Zopp s m) * pow2 e)%Qc -> 0 < m ->
  e <= fexp 53 1024 (Z.log2 m + 1 + e) ->
  is_value (binary_round_aux 53 1024 s m e loc_Exact) (ZQ (cond_Zopp s m) * pow2 e)%Qc.
Proof.
  intros F Hm He.
  assert (F' : fits (ZQ m * pow2 e)%Qc).
  { apply (fits_cond s). rewrite ZQ_cond in F. destruct s; auto.
    replace (- (ZQ m * pow2 e))%Qc with (- ZQ m * pow2 e)%Qc by ring. auto. }
  destruct F' as (M & E & HM & HE & Q).
  destruct (round_aux_exact s m e M E) as (m' & e' & R & B & V); auto.
  rewrite R. split; [exact B|]. simpl. f_equal. rewrite !ZQ_cond. destruct s; auto.
  replace (- ZQ m * pow2 e)%Qc with (- (ZQ m * pow2 e))%Qc by ring. rewrite <- V. ring.
Qed.

Lemma cond_mul s t a b : cond_Zopp (xorb s t) (a * b) = cond_Zopp s a * cond_Zopp t b.
Proof. destruct s, t; simpl; ring. Qed.

Lemma log2_mul_ge a b : 0 < a -> 0 < b -> Z.log2 a + Z.log2 b <= Z.log2 (a * b).
Proof. intros. apply Z.log2_mul_below; lia. Qed.

Lemma mul_exact x y a b : is_value x a -> is_value y b -> fits (a * b)%Qc -> is_value (f_mul x y) (a * b)%Qc.
Proof.
  intros (Vx & Hx) (Vy & Hy) F.
  destruct x as [s|s| |s m e]; simpl in Hx; try discriminate; injection Hx as <-;
  destruct y as [t|t| |t n d]; simpl in Hy; try discriminate; injection Hy as <-;
  try (unfold f_mul, SFmul; split; [reflexivity|]; simpl; f_equal; ring).
  apply bounded_spec in Vx as (X1 & X2 & X3). apply bounded_spec in Vy as (Y1 & Y2 & Y3).
  assert (E : (ZQ (cond_Zopp s (Zpos m)) * pow2 e * (ZQ (cond_Zopp t (Zpos n)) * pow2 d) =
    ZQ (cond_Zopp (xorb s t) (Zpos m * Zpos n)) * pow2 (e + d))%Qc).
  { rewrite cond_mul, ZQ_mul, pow2_add. ring. }
  rewrite E in F |- *. unfold f_mul, SFmul. change (Zpos (m * n)) with (Zpos m * Zpos n).
  apply round_aux_signed; auto; try lia.
  pose proof (log2_mul_ge (Zpos m) (Zpos n) ltac:(lia) ltac:(lia)) as H.
  pose proof (Z.log2_nonneg (Zpos m)) as H1. pose proof (Z.log2_nonneg (Zpos n)) as H2.
  rewrite fexp_spec in *. clear -X1 X2 Y1 Y2 H H1 H2. set (P := Z.log2 (Zpos m * Zpos n)) in *. lia.
Qed.

(** the correctly rounded quotient of m * 2^e and n * 2^d, for any m and n *)
Definition round_quotient (s : bool) (m : positive) (e : Z) (n : positive) (d : Z) : float :=
  let '(mz, ez, lz) := SFdiv_core_binary 53 1024 (Zpos m) e (Zpos n) d in binary_round_aux 53 1024 s mz ez lz.

Lemma quotient_exact s m e n d :
  let q := (ZQ (Zpos m) * pow2 e / (ZQ (Zpos n) * pow2 d))%Qc in
  fits q -> is_value (round_quotient s m e n d) (if s then (- q)%Qc else q).
Proof.
  intros q0 (M & E & HM & HE & Q). subst q0.
  assert (Nm : ZQ (Zpos n) <> 0%Qc) by (rewrite ZQ_eq0; lia).
  pose proof (pow2_nz d) as Nd.
  assert (Q2 : (ZQ (Zpos m) * pow2 e = ZQ (M * Zpos n) * pow2 (E + d))%Qc).
  { rewrite ZQ_mul, pow2_add. replace (ZQ M * ZQ (Zpos n) * (pow2 E * pow2 d))%Qc with ((ZQ M * pow2 E) * (ZQ (Zpos n) * pow2 d))%Qc by ring.
    rewrite <- Q. field. auto. }
  assert (HM0 : 0 < M).
  { destruct (Z.le_gt_cases e (E + d)) as [H|H].
    - apply pow2_align in Q2; auto. pose proof (Z.pow_pos_nonneg 2 (E + d - e)). nia.
    - symmetry in Q2. apply pow2_align in Q2; [|lia]. pose proof (Z.pow_pos_nonneg 2 (e - (E + d))). nia. }
  pose proof (log2_same (Zpos m) e (M * Zpos n) (E + d) ltac:(lia) ltac:(lia) Q2) as HL.
  pose proof (Z.log2_mul_above M (Zpos n) ltac:(lia) ltac:(lia)) as HL2.
  assert (HlM : Z.log2 M < 53) by (apply Z.log2_lt_pow2; lia).
  unfold round_quotient, SFdiv_core_binary. cbn [Zdigits2]. rewrite !digits_log2.
  set (F1 := fexp 53 1024 (Z.log2 (Zpos m) + 1 + e - (Z.log2 (Zpos n) + 1 + d))).
  set (e' := Z.min F1 (e - d)).
  set (L := Z.log2 (M * Zpos n)) in *.
  assert (HF : F1 <= E) by (unfold F1; rewrite fexp_spec; lia).
  assert (Hm' : match e - d - e' with Z0 => Zpos m | Zpos _ => Z.shiftl (Zpos m) (e - d - e') | Zneg _ => 0 end = Zpos m * 2 ^ (e - d - e')).
  { destruct (e - d - e') as [|p|p] eqn:D; [lia| |lia]. rewrite Z.shiftl_mul_pow2 by lia. reflexivity. }
  rewrite Hm'. clear Hm'.
  assert (Hq : Zpos m * 2 ^ (e - d - e') = Zpos n * (M * 2 ^ (E - e'))).
  { apply ZQ_inj. apply (Qc_cancel _ _ (pow2 (e' + d))); [apply pow2_nz|].
    replace (ZQ (Zpos m * 2 ^ (e - d - e')) * pow2 (e' + d))%Qc with (ZQ (Zpos m) * pow2 e)%Qc.
    2:{ replace e with ((e' + d) + (e - d - e')) at 1 by lia. rewrite pow2_succ by lia. rewrite ZQ_mul. ring. }
    rewrite Q2. replace (E + d) with ((e' + d) + (E - e')) by lia. rewrite pow2_succ by lia. rewrite !ZQ_mul. ring. }
  set (q := M * 2 ^ (E - e')) in *.
  assert (Hq0 : 0 < q) by (unfold q; apply Z.mul_pos_pos; auto; apply Z.pow_pos_nonneg; lia).
  rewrite Hq.
  assert (HD : Z.div_eucl (Zpos n * q) (Zpos n) = (q, 0)).
  { rewrite Z.mul_comm. pose proof (Z.div_mul q (Zpos n) ltac:(lia)) as D1. pose proof (Z.mod_mul q (Zpos n) ltac:(lia)) as D2.
    unfold Z.div in D1. unfold Z.modulo in D2. destruct (Z.div_eucl (q * Zpos n) (Zpos n)) as [u w]. congruence. }
  rewrite HD.
  assert (HN : new_location (Zpos n) 0 = loc_Exact).
  { unfold new_location, new_location_even, new_location_odd. destruct (Z.even _); reflexivity. }
  rewrite HN.
  assert (Hv : (ZQ (Zpos m) * pow2 e / (ZQ (Zpos n) * pow2 d) = ZQ q * pow2 e')%Qc).
  { rewrite Q. unfold q. replace E with (e' + (E - e')) at 1 by lia. rewrite pow2_succ, ZQ_mul by lia. ring. }
  rewrite Hv.
  assert (Hs : (if s then - (ZQ q * pow2 e') else ZQ q * pow2 e')%Qc = (ZQ (cond_Zopp s q) * pow2 e')%Qc).
  { rewrite ZQ_cond. destruct s; ring. }
  rewrite Hs.
  apply round_aux_signed; auto.
  - rewrite <- Hs. assert (fits (ZQ q * pow2 e')%Qc) by (rewrite <- Hv, Q; exists M, E; auto).
    destruct s; auto. apply fits_opp; auto.
  - assert (Hlq : Z.log2 q + e' = Z.log2 M + E) by (unfold q; rewrite Z.log2_mul_pow2 by lia; lia).
    assert (e' <= F1) by lia. unfold F1 in *. rewrite fexp_spec in *. lia.
Qed.

Lemma div_exact x y a b : is_value x a -> is_value y b -> b <> 0%Qc -> fits (a / b)%Qc -> is_value (f_div x y) (a / b)%Qc.
Proof.
  intros (Vx & Hx) (Vy & Hy) Hb F.
  destruct x as [s|s| |s m e]; simpl in Hx; try discriminate; injection Hx as <-;
  destruct y as [t|t| |t n d]; simpl in Hy; try discriminate; injection Hy as <-; try congruence.
  { unfold f_div, SFdiv; split; [reflexivity|]; simpl; f_equal. unfold Qcdiv. ring. }
  assert (Nm : ZQ (Zpos n) <> 0%Qc) by (rewrite ZQ_eq0; lia).
  pose proof (pow2_nz d) as Nd.
  assert (Sg : (ZQ (cond_Zopp s (Zpos m)) * pow2 e / (ZQ (cond_Zopp t (Zpos n)) * pow2 d) =
    (if xorb s t then - (ZQ (Zpos m) * pow2 e / (ZQ (Zpos n) * pow2 d)) else ZQ (Zpos m) * pow2 e / (ZQ (Zpos n) * pow2 d)))%Qc).
  { destruct s, t; simpl; change (Zneg m) with (- Zpos m); change (Zneg n) with (- Zpos n); rewrite ?ZQ_opp; field; splits; auto;
      try (intros Z; apply Nm; rewrite <- (Qcopp_involutive (ZQ (Zpos n))), Z; reflexivity). }
  rewrite Sg in F |- *. apply fits_cond in F.
  exact (quotient_exact (xorb s t) m e n d F).
Qed.

(** ** f64 numbers are equal if their values are, up to the sign of zero *)
Lemma eqb_value x y a b : is_value x a -> is_value y b -> (SFeqb x y = true <-> a = b).
Proof.
  intros (Vx & Hx) (Vy & Hy).
  assert (P : forall m e, (ZQ (Zpos m) * pow2 e <> 0)%Qc).
  { intros m e H. apply Qcmult_integral in H as [H|H]; [apply ZQ_eq0 in H; discriminate|apply pow2_nz in H; auto]. }
  assert (N : forall m e n d, (ZQ (Zpos m) * pow2 e + ZQ (Zpos n) * pow2 d <> 0)%Qc).
  { intros m e n d H. destruct (Z.le_gt_cases e d) as [L|L].
    - replace d with (e + (d - e)) in H by lia. rewrite pow2_succ in H by lia.
      replace (ZQ (Zpos m) * pow2 e + ZQ (Zpos n) * (pow2 e * ZQ (2 ^ (d - e))))%Qc with (ZQ (Zpos m + Zpos n * 2 ^ (d - e)) * pow2 e)%Qc in H
        by (rewrite ZQ_add, ZQ_mul; ring).
      apply Qcmult_integral in H as [H|H]; [apply ZQ_eq0 in H|apply pow2_nz in H; auto].
      pose proof (Z.pow_pos_nonneg 2 (d - e)). nia.
    - replace e with (d + (e - d)) in H by lia. rewrite pow2_succ in H by lia.
      replace (ZQ (Zpos m) * (pow2 d * ZQ (2 ^ (e - d))) + ZQ (Zpos n) * pow2 d)%Qc with (ZQ (Zpos m * 2 ^ (e - d) + Zpos n) * pow2 d)%Qc in H
        by (rewrite ZQ_add, ZQ_mul; ring).
      apply Qcmult_integral in H as [H|H]; [apply ZQ_eq0 in H|apply pow2_nz in H; auto].
      pose proof (Z.pow_pos_nonneg 2 (e - d)). nia. }
  assert (P' : forall s m e, (ZQ (cond_Zopp s (Zpos m)) * pow2 e <> 0)%Qc).
  { intros s m e H. apply (P m e). rewrite ZQ_cond in H. destruct s; auto.
    replace (ZQ (Zpos m) * pow2 e)%Qc with (- (- ZQ (Zpos m) * pow2 e))%Qc by ring. rewrite H. reflexivity. }
  destruct x as [s|s| |s m e]; simpl in Hx; try discriminate; injection Hx as <-;
  destruct y as [t|t| |t n d]; simpl in Hy; try discriminate; injection Hy as <-; unfold SFeqb; cbn [SFcompare].
  - split; auto.
  - split; [destruct t; discriminate|]. intros E. symmetry in E. apply P' in E as [].
  - split; [destruct s; discriminate|]. intros E. apply P' in E as [].
  - assert (U : (ZQ (Zpos m) * pow2 e = ZQ (Zpos n) * pow2 d)%Qc -> e = d /\ m = n).
    { intros E. pose proof (log2_same (Zpos m) e (Zpos n) d eq_refl eq_refl E) as L.
      apply bounded_spec in Vx as (X & _). apply bounded_spec in Vy as (Y & _).
      assert (e = d) as -> by (rewrite <- X, <- Y; f_equal; lia).
      split; auto. apply Qc_cancel in E; [|apply pow2_nz]. apply ZQ_inj in E. congruence. }
    rewrite !ZQ_cond.
    destruct s, t.
    + split.
      * destruct (Z.compare_spec e d) as [->| |]; try discriminate.
        rewrite <- Pos.compare_antisym. destruct (Pos.compare_spec n m) as [->| |]; try discriminate. auto.
      * intros E. destruct U as (-> & ->); [|rewrite Z.compare_refl, Pcompare_refl; reflexivity].
        replace (ZQ (Zpos m) * pow2 e)%Qc with (- (- ZQ (Zpos m) * pow2 e))%Qc by ring. rewrite E. ring.
    + split; [discriminate|]. intros E. exfalso. apply (N m e n d). rewrite <- E. ring.
    + split; [discriminate|]. intros E. exfalso. apply (N m e n d). rewrite E. ring.
    + split.
      * destruct (Z.compare_spec e d) as [->| |]; try discriminate.
        change (Pcompare m n Eq) with (Pos.compare m n).
        destruct (Pos.compare_spec m n) as [->| |]; try discriminate. auto.
      * intros E. destruct U as (-> & ->); auto. rewrite Z.compare_refl, Pcompare_refl. reflexivity.
Qed.
