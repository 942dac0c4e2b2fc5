(** modular_solver.rs: rational reconstruction (Dixon's bound). *)
From Coq Require Import List ZArith Lia Bool PeanoNat Znumtheory QArith Qcanon.
From Verif Require Import Base Partition Vec Matrix ZQ ModSolver ModSolve.
Import ListNotations.
Open Scope Z_scope.

Lemma prime5 : prime 5.
Proof.
  constructor; [lia|]. intros n Hn. assert (n = 1 \/ n = 2 \/ n = 3 \/ n = 4) as [-> | [-> | [-> | ->]]] by lia;
    apply Zgcd_1_rel_prime; reflexivity.
Qed.

Lemma sqrt5_irrational m k : m * m = 5 * (k * k) -> k = 0.
Proof.
  assert (H : forall n m k, Z.abs k <= Z.of_nat n -> m * m = 5 * (k * k) -> k = 0).
  { induction n as [|n IH]; clear m k; intros m k Hk E; [lia|].
    assert (D : (5 | m)).
    { destruct (prime_mult 5 prime5 m m) as [D|D]; auto. exists (k * k). lia. }
    destruct D as [m' ->]. assert (E2 : k * k = 5 * (m' * m')) by lia.
    assert (D : (5 | k)).
    { destruct (prime_mult 5 prime5 k k) as [D|D]; auto. exists (m' * m'). lia. }
    destruct D as [k' ->]. assert (E3 : m' * m' = 5 * (k' * k')) by lia.
    assert (k' = 0); [|lia]. apply (IH m' k'); auto. lia. }
  apply (H (Z.to_nat (Z.abs k))). lia.
Qed.

(** golden_le (x^2) h, that is phi^2 x^2 <= h, as a proposition *)
Lemma golden_le_spec d h : golden_le d h = true <-> 0 <= 2 * h - 3 * d /\ 5 * (d * d) <= (2 * h - 3 * d) * (2 * h - 3 * d).
Proof. unfold golden_le. rewrite andb_true_iff, !Z.leb_le. tauto. Qed.

Lemma golden_mono d d' h : 0 <= d <= d' -> golden_le d' h = true -> golden_le d h = true.
Proof. rewrite !golden_le_spec. intros Hd [H1 H2]. split; [lia|]. nia. Qed.

Lemma dixon_bound h D U : 0 < D -> 0 <= U -> U * U <= h -> golden_le (D * D) h = true -> h <= D * D + U * D -> False.
Proof.
  intros HD HU HUh HG Hh. apply golden_le_spec in HG as [G1 G2].
  assert (K : h * h - 3 * h * (D * D) + D * D * (D * D) <= 0).
  { assert (S1 : 0 <= h - D * D) by nia.
    assert (S2 : (h - D * D) * (h - D * D) <= (U * D) * (U * D)) by nia.
    assert (S3 : (U * D) * (U * D) <= h * (D * D)) by nia. lia. }
  assert (E : (2 * h - 3 * (D * D)) * (2 * h - 3 * (D * D)) = 5 * (D * D * (D * D))) by lia.
  assert (D * D = 0) by (eapply sqrt5_irrational; exact E). nia.
Qed.

(** the invariant of the loop.  [sg0] is the sign of [s]; the state is (e u,
    sg0 e u1, sg0 e v, e v1) for nonnegative u, u1, v, v1 and a sign e *)
Definition rr_inv (s h sg0 : Z) (st : Z * Z * Z * Z * Z) : Prop :=
  let '(a, a1, b, b1, sg) := st in
  exists e u u1 v v1, (e = 1 \/ e = -1) /\ (sg = 1 \/ sg = -1) /\
    a = e * u /\ a1 = sg0 * e * u1 /\ b = sg0 * e * v /\ b1 = e * v1 /\
    0 <= u1 < u /\ 0 <= v /\ 1 <= v1 /\ u * v1 + u1 * v = h /\ h < u * u /\
    cong h (sg * sg0 * u1) (s * v1) /\ cong h (- (sg * sg0 * u)) (s * v).

Definition rr_post (s h : Z) (r : Z * Z) : Prop :=
  let '(nu, de) := r in
  de <> 0 /\ forall n d, 0 < d -> cong h (s * d) n ->
    golden_le (n * n) h = true -> golden_le (d * d) h = true -> nu * d = n * de.

Lemma sign_cases x : x = 1 \/ x = -1 -> x * x = 1.
Proof. intros [-> | ->]; reflexivity. Qed.

(** (n, d) = al (-u, v) + be (u1, v1) up to signs, with al <> 0 *)
Lemma core h T u u1 v v1 al be n d : (T = 1 \/ T = -1) -> 0 <= u1 < u -> 0 <= v -> 1 <= v1 -> h < u * u -> u1 * u1 <= h -> 0 < h -> 0 < d ->
  n * n < h -> golden_le (n * n) h = true -> golden_le (d * d) h = true -> al <> 0 ->
  T * u1 * d - n * v1 = al * h -> n = be * u1 - al * u -> T * d = al * v + be * v1 -> False.
Proof.
  intros HT Hu Hv Hv1 Hu2 Hend Hh Hd Hn2 Gn Gd Hal A Nn Nd.
  assert (Hnu : Z.abs n < u) by nia.
  assert (Hdv : v1 <= d).
  { assert (P : exists al' be', al' <> 0 /\ T * n = be' * u1 - al' * u /\ d = al' * v + be' * v1).
    { exists (T * al), (T * be). destruct HT as [-> | ->]; lia. }
    destruct P as (x & y & Hx & P1 & P2).
    assert (An : Z.abs (T * n) < u) by (destruct HT as [-> | ->]; lia).
    destruct (Z.le_gt_cases x 0) as [X|X].
    - exfalso. destruct (Z.le_gt_cases y 0) as [Y|Y]; [nia|]. assert (T * n >= u) by nia. lia.
    - destruct (Z.le_gt_cases y 0) as [Y|Y]; [exfalso; assert (T * n <= - u) by nia; lia|]. nia. }
  assert (Hsum : h <= Z.abs n * v1 + u1 * d).
  { assert (Z.abs (al * h) <= Z.abs n * v1 + u1 * d).
    { rewrite <- A. destruct HT as [-> | ->]; nia. } nia. }
  set (D := Z.max (Z.abs n) d).
  assert (GD : golden_le (D * D) h = true).
  { unfold D. destruct (Z.max_spec (Z.abs n) d) as [[_ ->]|[_ ->]]; auto. rewrite <- Z.abs_square in Gn. auto. }
  apply (dixon_bound h D u1); auto; try lia; unfold D; try lia. 
  assert (Z.abs n * v1 <= Z.max (Z.abs n) d * Z.max (Z.abs n) d) by (apply Z.mul_le_mono_nonneg; lia). nia.
Qed.

Lemma rr_final s h sg0 st : 0 < h -> (sg0 = 1 \/ sg0 = -1) -> rr_inv s h sg0 st ->
  let '(u, u1, v, v1, sg) := st in u1 * u1 <= h -> rr_post s h (sg * u1, v1).
Proof.
  destruct st as [[[[a a1] b] b1] sg]. intros Hh Hs0 (e & u & u1 & v & v1 & He & Hsg & -> & -> & -> & -> & Hu & Hv & Hv1 & E & Hu2 & C1 & C2) Hend.
  split.
  { destruct He as [-> | ->]; lia. }
  intros n d Hd C Gn Gd.
  assert (He2 := sign_cases e He). assert (Hsg2 := sign_cases sg Hsg). assert (Hs02 := sign_cases sg0 Hs0).
  set (T := sg * sg0) in *. assert (HT : T = 1 \/ T = -1) by (unfold T; destruct Hsg as [-> | ->], Hs0 as [-> | ->]; lia).
  assert (Hend' : u1 * u1 <= h) by (replace (u1 * u1) with (sg0 * e * u1 * (sg0 * e * u1)); [auto|]; transitivity ((sg0 * sg0) * (e * e) * (u1 * u1)); [ring|rewrite Hs02, He2; ring]).
  cut (T * u1 * d = n * v1).
  { intros F. unfold T in F. transitivity (e * (sg * sg0 * u1 * d)); [ring|]. rewrite F. ring. }
  (* coordinates of (n, d) *)
  assert (A : (h | T * u1 * d - n * v1)).
  { assert (X : cong h (T * u1 * d) (n * v1)).
    { eapply cong_trans; [apply cong_mul; [exact C1|apply cong_refl]|]. replace (s * v1 * d) with (s * d * v1) by ring.
      apply cong_mul; [exact C|apply cong_refl]. }
    exact X. }
  assert (B : (h | T * u * d + n * v)).
  { assert (X : cong h (- (T * u) * d) (n * v)).
    { eapply cong_trans; [apply cong_mul; [exact C2|apply cong_refl]|]. replace (s * v * d) with (s * d * v) by ring.
      apply cong_mul; [exact C|apply cong_refl]. }
    destruct X as [z X]. exists (- z). lia. }
  destruct A as [al A], B as [be B].
  assert (Nn : n = be * u1 - al * u).
  { apply Z.mul_reg_r with h; [lia|]. transitivity (u1 * (be * h) - u * (al * h)); [|ring]. rewrite <- A, <- B, <- E. ring. }
  assert (Nd : T * d = al * v + be * v1).
  { apply Z.mul_reg_r with h; [lia|]. transitivity (v * (al * h) + v1 * (be * h)); [|ring]. rewrite <- A, <- B, <- E. ring. }
  clear C1 C2 C B Hend. clearbody T.
  destruct (Z.eq_dec al 0) as [Z0|Hal]; [rewrite Z0 in A; lia|exfalso].
  assert (Gn2 : n * n < h). { apply golden_le_spec in Gn as [? ?]. nia. }
  eapply (core h T u u1 v v1 al be n d); eauto.
Qed.

Lemma quot_sign e f a b : (e = 1 \/ e = -1) -> (f = 1 \/ f = -1) -> b <> 0 -> Z.quot (e * a) (f * e * b) = f * Z.quot a b /\ Z.rem (e * a) (f * e * b) = e * Z.rem a b.
Proof.
  intros [-> | ->] [-> | ->] Hb; split; repeat (rewrite ?Z.mul_1_l, ?Z.mul_1_r);
  repeat match goal with |- context[-1 * ?x] => replace (-1 * x) with (- x) by ring end;
  rewrite ?Z.opp_involutive, ?Z.quot_opp_opp, ?Z.quot_opp_l, ?Z.quot_opp_r, ?Z.rem_opp_opp, ?Z.rem_opp_l, ?Z.rem_opp_r by lia; auto;
  try (change (-1 * -1) with 1; rewrite ?Z.mul_1_l; rewrite ?Z.quot_opp_l, ?Z.rem_opp_l by lia; auto).
Qed.

Lemma rr_next s h sg0 a a1 b b1 sg : 0 < h -> (sg0 = 1 \/ sg0 = -1) -> rr_inv s h sg0 (a, a1, b, b1, sg) -> h < a1 * a1 ->
  rr_inv s h sg0 (a1, Z.rem a a1, b1, b + Z.quot a a1 * b1, - sg) /\ Z.abs (Z.rem a a1) < Z.abs a1.
Proof.
  intros Hh Hs0 (e & u & u1 & v & v1 & He & Hsg & -> & -> & -> & -> & Hu & Hv & Hv1 & E & Hu2 & C1 & C2) Hgo.
  assert (He2 := sign_cases e He). assert (Hs02 := sign_cases sg0 Hs0).
  assert (Hgo' : h < u1 * u1) by (replace (u1 * u1) with (sg0 * e * u1 * (sg0 * e * u1)); [auto|]; transitivity ((sg0 * sg0) * (e * e) * (u1 * u1)); [ring|rewrite Hs02, He2; ring]).
  assert (Hu1 : u1 <> 0) by nia.
  split; [|apply Z.rem_bound_abs; intros Z0; rewrite Z0 in Hgo; lia].
  destruct (quot_sign e sg0 u u1 He Hs0 Hu1) as [-> ->].
  pose proof (Z.quot_rem' u u1) as Q. pose proof (Z.rem_bound_pos u u1) as R. assert (Hq : 0 <= Z.quot u u1) by (apply Z.quot_pos; lia).
  set (q := Z.quot u u1) in *. set (r := Z.rem u u1) in *. clearbody q r.
  exists (sg0 * e), u1, r, v1, (v + q * v1). splits; try lia; try nia.
  - replace (- sg * sg0 * r) with (- (sg * sg0 * u) + q * (sg * sg0 * u1)) by (rewrite Q; ring).
    replace (s * (v + q * v1)) with (s * v + q * (s * v1)) by ring. apply cong_add; auto. apply cong_mul; [apply cong_refl|auto].
  - replace (- (- sg * sg0 * u1)) with (sg * sg0 * u1) by ring. auto.
Qed.

Lemma rational_reconstruction_ok s h : 1 < h -> Z.abs s < h ->
  exists nu de, de <> 0 /\ rational_reconstruction s h = Ret (ZQ nu / ZQ de)%Qc /\
    forall n d, 0 < d -> cong h (s * d) n -> golden_le (n * n) h = true -> golden_le (d * d) h = true -> nu * d = n * de.
Proof.
  intros Hh Hs. unfold rational_reconstruction.
  set (sg0 := if Z.ltb s 0 then -1 else 1). assert (Hs0 : sg0 = 1 \/ sg0 = -1) by (unfold sg0; destruct (Z.ltb_spec s 0); auto).
  destruct (loop_rule (rr_step h) (rr_inv s h sg0) (fun st => let '(_, a1, _, _, _) := st in Z.abs a1) (rr_post s h)
    (Z.to_nat (Z.log2 (Z.abs s)) + 1) (h, s, 0, 1, 1)) as ([nu de] & E & P).
  - intros [[[[a a1] b] b1] sg] I. unfold rr_step. destruct (Z.ltb_spec h (a1 * a1)) as [L|L].
    + destruct (Z.eqb_spec a1 0) as [->|N]; [lia|]. destruct (rr_next s h sg0 a a1 b b1 sg ltac:(lia) Hs0 I L). split; auto. lia.
    + exact (rr_final s h sg0 _ ltac:(lia) Hs0 I L).
  - exists 1, h, (Z.abs s), 0, 1. assert (Es : sg0 * Z.abs s = s) by (unfold sg0; destruct (Z.ltb_spec s 0); lia). splits; try lia; try nia.
    + apply cong_eq. lia.
    + exists (- sg0). ring.
  - destruct (Z.eq_dec s 0) as [->|Hb]; [simpl; lia|].
    rewrite Nat2Z.inj_add, Z2Nat.id by apply Z.log2_nonneg. simpl Z.of_nat. pose proof (Z.log2_spec (Z.abs s)). lia.
  - rewrite E. cbn [bind]. destruct P as [P1 P2]. exists nu, de. destruct (Z.eqb_spec de 0); [lia|]. splits; auto.
Qed.

Lemma ZQ_div_eq a b c d : b <> 0 -> d <> 0 -> a * d = c * b -> (ZQ a / ZQ b = ZQ c / ZQ d)%Qc.
Proof.
  intros Hb Hd E. assert (Hb' : ZQ b <> 0%Qc) by (rewrite ZQ_eq0; auto). assert (Hd' : ZQ d <> 0%Qc) by (rewrite ZQ_eq0; auto).
  assert (E' : (ZQ a * ZQ d = ZQ c * ZQ b)%Qc) by (rewrite <- !ZQ_mul, E; auto).
  transitivity (ZQ a * ZQ d / (ZQ b * ZQ d))%Qc; [field; auto|]. rewrite E'. field. auto.
Qed.
