(** modular_solver.rs 156-177: number_of_p_adic_steps_needed and column_norm as the code has them, in f64.

    The arithmetic is that of F64.v.  The functions [f64::powf(., 2.0)], [f64::sqrt] and [f64::ln] belong to the
    platform's library, and are parameters here; [accurate] says how good they have to be. *)
From Coq Require Import List ZArith Lia Bool PeanoNat QArith Qcanon Qround Qreals Reals Lra Permutation Sorted.
From Coq Require Import Floats.SpecFloat.
From Verif Require Import Base Partition Vec Matrix ZQ QcTac F64 F64Exact FloatReal ModSolver ModSolve Dixon ModFinal Props_ModSolver Props_Steps.
From Verif Require ModMC.
Import ListNotations.
Open Scope R_scope.

(** modular_solver.rs 163, 166: f64::total_cmp, [Less] or [Equal]: the numeric order with -0 below +0 and NaN last (SpecFloat's NaN has no sign) *)
Definition sign_bit (x : float) : bool :=
  match x with S754_zero s | S754_infinity s | S754_finite s _ _ => s | S754_nan => false end.
Definition total_leb (x y : float) : bool :=
  match x, y with
  | _, S754_nan => true
  | S754_nan, _ => false
  | S754_infinity true, _ | _, S754_infinity false => true
  | S754_infinity false, _ | _, S754_infinity true => false
  | _, _ =>
      match value x, value y with
      | Some p, Some q => if Qc_eqb p q then implb (sign_bit y) (sign_bit x) else Qle_bool p q
      | _, _ => true
      end
  end.

(** modular_solver.rs 161-164: Iterator::max_by(total_cmp), the last of the greatest *)
Definition max_total (l : list float) : option float :=
  match l with [] => None | x :: xs => Some (fold_left (fun m y => if total_leb m y then y else m) xs x) end.

(** modular_solver.rs 166: slice::sort_by(total_cmp) *)
Fixpoint insert_total (x : float) (l : list float) : list float :=
  match l with [] => [x] | y :: l' => if total_leb x y then x :: l else y :: insert_total x l' end.
Definition sort_total (l : list float) : list float := fold_right insert_total [] l.

(** modular_solver.rs 171: [x.ceil() as u64]: saturating, 0 for NaN *)
Definition ceil_u64 (x : float) : Z :=
  match x with
  | S754_infinity s => if s then 0%Z else (2 ^ 64 - 1)%Z
  | _ => match value x with Some q => Z.max 0 (Z.min (2 ^ 64 - 1) (Qceiling q)) | None => 0%Z end
  end.

Section Model.
  (** modular_solver.rs 159, 162, 169, 171, 176: [f64::powf(x, 2.0)], [f64::sqrt(x)] and [f64::ln(x)] *)
  Variables sq sqrt_f ln_f : float -> float.

  (** modular_solver.rs 175-177: column_norm (the sum starts at 0.0; newer compilers start at -0.0, which makes no difference here) *)
  Definition column_norm (a : zmat) (j : nat) : outcome float :=
    do t <- mapM (fun i => do x <- ix a i j; Ret (sq (float_of_int x))) (seq 0 (length a));
    Ret (sqrt_f (fold_left f_add t f_zero)).

  (** modular_solver.rs 169: golden_ratio *)
  Definition golden_f : float := f_div (f_add f_one (sqrt_f (float_of_int 5))) (float_of_int 2).

  (** modular_solver.rs 156-172: number_of_p_adic_steps_needed *)
  Definition f64_steps (a b : zmat) (p : Z) : outcome nat :=
    do a0 <- unwrap (nth_error a 0);
    do la <- mapM (fun j => do x <- column_norm a j; Ret (ln_f x)) (seq 0 (length a0));
    do b0 <- unwrap (nth_error b 0);
    do lb <- mapM (fun j => do x <- column_norm b j; Ret (ln_f x)) (seq 0 (length b0));
    do mb <- unwrap (max_total lb);
    let log_delta := fold_left f_add (tl (sort_total (la ++ [mb]))) f_zero in
    Ret (Z.to_nat (ceil_u64 (f_div (f_mul (float_of_int 2) (f_add log_delta (ln_f golden_f))) (ln_f (float_of_int p))))).
End Model.

(** ** what is assumed of the platform's functions *)
Definition eps : R := / 1000000000000.

Definition square_accurate (sq : float -> float) : Prop := forall x a, fv x a -> a = 0 \/ / 2 <= Rabs a <= IZR (2 ^ 64) ->
  exists r, fv (sq x) r /\ Rabs (r - a * a) <= eps * (a * a).
Definition sqrt_accurate (sqrt_f : float -> float) : Prop := forall x a, fv x a -> a = 0 \/ / 2 <= a <= IZR (2 ^ 200) ->
  exists r, fv (sqrt_f x) r /\ Rabs (r - sqrt a) <= eps * sqrt a.
Definition ln_accurate (ln_f : float -> float) : Prop :=
  (forall x, fv x 0 -> ln_f x = S754_infinity true) /\
  (forall x a, fv x a -> / 2 <= a <= IZR (2 ^ 100) -> exists r, fv (ln_f x) r /\ Rabs (r - ln a) <= eps * (1 + Rabs (ln a))).

(** ** logarithms *)
Lemma ln_le_minus x : 0 < x -> ln x <= x - 1.
Proof.
  intros H. destruct (Req_dec (ln x) 0) as [E|N].
  - assert (x = 1) as ->; [|rewrite ln_1; lra]. rewrite <- (exp_ln x H), E. apply exp_0.
  - pose proof (exp_ineq1 (ln x) N) as X. rewrite exp_ln in X by auto. lra.
Qed.
Lemma ln_ge_minus x : 0 < x -> 1 - / x <= ln x.
Proof.
  intros H. assert (I : 0 < / x) by (apply Rinv_0_lt_compat; auto). pose proof (ln_le_minus (/ x) I) as X. rewrite ln_Rinv in X by auto. lra.
Qed.
Lemma ln_mono x y : 0 < x -> x <= y -> ln x <= ln y.
Proof. intros H [L| ->]; [left; apply ln_increasing; auto|lra]. Qed.
Lemma ln2_bounds : 0 < ln 2 < 1.
Proof.
  split; [rewrite <- ln_1; apply ln_increasing; lra|]. pose proof (ln_lt_2) as _.
  assert (X : 2 < exp 1) by (pose proof (exp_ineq1 1 ltac:(lra)); lra).
  rewrite <- (ln_exp 1). apply ln_increasing; lra.
Qed.
Lemma ln_pow2 k : ln (2 ^ k) = INR k * ln 2.
Proof. induction k as [|k IH]; [simpl; rewrite ln_1; lra|]. rewrite <- tech_pow_Rmult, ln_mult, IH, S_INR by (try lra; apply pow_lt; lra). lra. Qed.
Lemma IZR_pow2 (k : nat) : IZR (2 ^ Z.of_nat k) = 2 ^ k.
Proof. rewrite <- pow_IZR. reflexivity. Qed.
Lemma ln_upper x (k : nat) : 0 < x -> x <= IZR (2 ^ Z.of_nat k) -> ln x <= INR k.
Proof.
  intros H L. rewrite IZR_pow2 in L. apply Rle_trans with (ln (2 ^ k)); [apply ln_mono; auto|].
  rewrite ln_pow2. pose proof ln2_bounds. pose proof (pos_INR k). nra.
Qed.

(** a small relative error moves the logarithm a little *)
Lemma ln_close x y e : 0 < y -> 0 <= e <= / 2 -> Rabs (x - y) <= e * y -> 0 < x /\ Rabs (ln x - ln y) <= 2 * e.
Proof.
  intros Hy He H. apply Rabs_def2 in H || idtac.
  assert (B : y - e * y <= x <= y + e * y) by (unfold Rabs in H; destruct (Rcase_abs (x - y)); lra).
  assert (P : 0 < x) by nra. split; auto.
  assert (Q : 0 < x / y) by (apply Rdiv_lt_0_compat; auto).
  assert (E : ln x - ln y = ln (x / y)) by (unfold Rdiv; rewrite ln_mult, ln_Rinv; auto; try lra; apply Rinv_0_lt_compat; auto).
  assert (D : 1 - e <= x / y <= 1 + e).
  { split.
    - apply (Rmult_le_reg_r y); auto. unfold Rdiv. rewrite Rmult_assoc, Rinv_l by lra. lra.
    - apply (Rmult_le_reg_r y); auto. unfold Rdiv. rewrite Rmult_assoc, Rinv_l by lra. lra. }
  rewrite E. apply Rabs_le. split.
  - pose proof (ln_ge_minus _ Q) as X. assert (I : / (x / y) <= 1 + 2 * e); [|lra].
    apply Rle_trans with (/ (1 - e)); [apply Rinv_le_contravar; lra|].
    apply (Rmult_le_reg_r (1 - e)); [lra|]. rewrite Rinv_l by lra. nra.
  - pose proof (ln_le_minus _ Q). lra.
Qed.

(** ** sums *)
Lemma eps_bounds : 0 < eps /\ 1000 * u <= eps.
Proof. pose proof u_bounds. unfold eps. split; lra. Qed.

Lemma sum_squares (t : nat -> float) (v : nat -> R) (s : nat -> Z) c n : 0 <= c <= / 4 -> (n <= 1000)%nat ->
  (forall i, (i < n)%nat -> fv (t i) (v i) /\ Rabs (v i - IZR (s i)) <= c * IZR (s i) /\ (0 <= s i <= 2 ^ 126)%Z) ->
  exists r, fv (fold_left f_add (map t (seq 0 n)) f_zero) r /\ Rabs (r - IZR (zs n s)) <= (c + 2 * INR n * u) * IZR (zs n s) /\
    (0 <= zs n s <= Z.of_nat n * 2 ^ 126)%Z.
Proof.
  intros Hc. induction n as [|n IH]; intros Hn H.
  - exists 0. split; [apply fv_zero|]. cbn [zs]. split; [|lia]. rewrite Rminus_0_r, Rabs_R0. lra.
  - destruct IH as (r & F & E & B); [lia|intros i Hi; apply H; lia|]. destruct (H n ltac:(lia)) as (Fn & En & Bn).
    rewrite seq_S, map_app, fold_left_app. cbn [map fold_left plus zs].
    set (Sn := zs n s) in *. clearbody Sn. rewrite plus_IZR.
    assert (B1 : 0 <= IZR Sn <= IZR (1000 * 2 ^ 126)) by (split; apply IZR_le; lia).
    assert (B2 : 0 <= IZR (s n) <= IZR (2 ^ 126)) by (split; apply IZR_le; lia).
    assert (N : 0 <= INR n <= 1000) by (split; [apply pos_INR|rewrite INR_IZR_INZ; apply IZR_le; lia]).
    pose proof u_bounds as U. set (k := c + 2 * INR n * u) in *. assert (K : c <= k <= / 2) by (unfold k; split; nra).
    assert (T : Rabs (r + v n - (IZR Sn + IZR (s n))) <= k * (IZR Sn + IZR (s n))).
    { replace (r + v n - (IZR Sn + IZR (s n))) with ((r - IZR Sn) + (v n - IZR (s n))) by ring.
      eapply Rle_trans; [apply Rabs_triang|]. nra. }
    assert (T2 : Rabs (r + v n) <= 2 * (IZR Sn + IZR (s n))).
    { replace (r + v n) with ((r + v n - (IZR Sn + IZR (s n))) + (IZR Sn + IZR (s n))) by ring.
      eapply Rle_trans; [apply Rabs_triang|]. rewrite (Rabs_right (IZR Sn + _)) by lra. nra. }
    destruct (fadd_real _ _ _ _ F Fn) as (r' & F' & E').
    { eapply Rle_trans; [exact T2|]. assert (L : 2 * (IZR (1000 * 2 ^ 126) + IZR (2 ^ 126)) <= IZR (2 ^ 200)).
      { rewrite <- plus_IZR, <- mult_IZR. apply IZR_le. vm_compute. discriminate. }
      lra. }
    exists r'. split; [exact F'|]. split; [|lia].
    replace (r' - (IZR Sn + IZR (s n))) with ((r' - (r + v n)) + (r + v n - (IZR Sn + IZR (s n)))) by ring.
    eapply Rle_trans; [apply Rabs_triang|]. rewrite S_INR. unfold k in *. nra.
Qed.

Definition sumR (l : list R) : R := fold_right Rplus 0 l.

Lemma sum_logs l : forall vs k x a, Forall2 fv l vs -> Forall (fun v => Rabs v <= 70) vs -> fv x a -> (k + length l <= 1001)%nat ->
  Rabs a <= 71 * INR k ->
  exists r, fv (fold_left f_add l x) r /\ Rabs (r - (a + sumR vs)) <= INR (length l) * / 100000000000 /\ Rabs r <= 71 * INR (k + length l).
Proof.
  pose proof u_bounds as U.
  induction l as [|y l IH]; intros vs k x a F2 B F K Ha; inversion F2; subst; cbn [fold_left length sumR fold_right].
  - exists a. rewrite Nat.add_0_r. split; auto. split; auto. replace (a - (a + 0)) with 0 by ring. rewrite Rabs_R0. simpl. lra.
  - inversion B; subst. cbn [length] in K. rename y0 into v.
    assert (N : 0 <= INR k <= 1001) by (split; [apply pos_INR|rewrite INR_IZR_INZ; apply IZR_le; lia]).
    assert (A : Rabs (a + v) <= 71 * INR k + 70) by (eapply Rle_trans; [apply Rabs_triang|lra]).
    assert (L : 71 * 1001 + 70 <= IZR (2 ^ 200)).
    { rewrite <- mult_IZR, <- plus_IZR. apply IZR_le. vm_compute. discriminate. }
    destruct (fadd_real x y a v F H1 ltac:(lra)) as (s & Fs & Es).
    assert (Q : u * Rabs (a + v) <= / 100000000000) by (pose proof (Rabs_pos (a + v)); nra).
    assert (As : Rabs s <= 71 * INR (S k)).
    { replace s with ((s - (a + v)) + (a + v)) by ring. eapply Rle_trans; [apply Rabs_triang|]. rewrite S_INR. lra. }
    destruct (IH l' (S k) _ s H3 H4 Fs ltac:(lia) As) as (r & Fr & Er & Br). exists r. split; auto. split.
    + fold (sumR l'). replace (r - (a + (v + sumR l'))) with ((r - (s + sumR l')) + (s - (a + v))) by ring.
      eapply Rle_trans; [apply Rabs_triang|]. rewrite (S_INR (length l)). lra.
    + replace (k + S (length l))%nat with (S k + length l)%nat by lia. exact Br.
Qed.

(** ** the logarithm of a column's norm *)
(** a finite logarithm of moderate size, or -inf, written here as -1000 *)
Definition good (x : float) (v : R) : Prop := (fv x v /\ Rabs v <= 70) \/ (x = S754_infinity true /\ v = -1000).

Definition half_ln (s : Z) : R := ln (IZR s) / 2.

Section Accurate.
  Variables sq sqrt_f ln_f : float -> float.
  Hypothesis Asq : square_accurate sq.
  Hypothesis Asqrt : sqrt_accurate sqrt_f.
  Hypothesis Aln : ln_accurate ln_f.

  Lemma entry_square z : (Z.abs z <= 2 ^ 63)%Z -> exists v, fv (sq (float_of_int z)) v /\ Rabs (v - IZR (z * z)) <= 2 * eps * IZR (z * z).
  Proof.
    intros H. destruct (float_of_int_real z) as (a & F & E).
    { transitivity (2 ^ 63)%Z; [exact H|vm_compute; discriminate]. }
    pose proof u_bounds as U. pose proof eps_bounds as P. unfold eps in P.
    destruct (Z.eq_dec z 0) as [->|N].
    - rewrite Rabs_R0, Rmult_0_r in E. assert (a = 0) as -> by (unfold Rabs in E; destruct (Rcase_abs _); lra).
      destruct (Asq _ _ F (or_introl eq_refl)) as (v & Fv & Ev). exists v. split; auto. replace (0 * 0)%R with 0 in Ev by ring.
      change (0 * 0)%Z with 0%Z. lra.
    - assert (Az : 1 <= Rabs (IZR z) <= IZR (2 ^ 63)).
      { rewrite <- abs_IZR. split; [replace 1 with (IZR 1) by reflexivity|]; apply IZR_le; lia. }
      assert (Bz : IZR (2 ^ 63) + 1 <= IZR (2 ^ 64)) by (rewrite <- plus_IZR; apply IZR_le; vm_compute; discriminate).
      assert (Aa : Rabs (IZR z) - u * Rabs (IZR z) <= Rabs a <= Rabs (IZR z) + u * Rabs (IZR z)).
      { split.
        - pose proof (Rabs_triang (- (a - IZR z)) a) as T. replace (- (a - IZR z) + a) with (IZR z) in T by ring. rewrite Rabs_Ropp in T. lra.
        - pose proof (Rabs_triang (a - IZR z) (IZR z)) as T. replace (a - IZR z + IZR z) with a in T by ring. lra. }
      assert (Cz : u * Rabs (IZR z) <= u * IZR (2 ^ 63)) by (apply Rmult_le_compat_l; lra).
      assert (Dz : u * IZR (2 ^ 63) <= 2000) by (change (IZR (2 ^ 63)) with 9223372036854775808; lra).
      destruct (Asq _ _ F) as (v & Fv & Ev).
      { right. change (IZR (2 ^ 64)) with 18446744073709551616. change (IZR (2 ^ 63)) with 9223372036854775808 in *. split; [nra|lra]. }
      exists v. split; auto. rewrite mult_IZR. set (w := IZR z) in *. clearbody w.
      assert (Sq : Rabs (a * a - w * w) <= 3 * u * (w * w)).
      { replace (a * a - w * w) with ((a - w) * (a + w)) by ring. rewrite Rabs_mult.
        assert (T : Rabs (a + w) <= 3 * Rabs w) by (eapply Rle_trans; [apply Rabs_triang|nra]).
        replace (3 * u * (w * w)) with (u * Rabs w * (3 * Rabs w)).
        - apply Rmult_le_compat; auto using Rabs_pos.
        - pose proof (Rsqr_abs w) as X. unfold Rsqr in X. rewrite X. ring. }
      replace (v - w * w) with ((v - a * a) + (a * a - w * w)) by ring. eapply Rle_trans; [apply Rabs_triang|].
      assert (Q : a * a <= w * w + 3 * u * (w * w)) by (unfold Rabs in Sq; destruct (Rcase_abs _); lra).
      assert (0 <= w * w) by nra. unfold eps in *. nra.
  Qed.

  Variables (n : nat).
  Hypothesis Hn : (n <= 1000)%nat.

  Definition col_f (g : nat -> nat -> Z) (j : nat) : float := sqrt_f (fold_left f_add (map (fun i => sq (float_of_int (g i j))) (seq 0 n)) f_zero).

  Lemma column_ln g j : (forall i, (i < n)%nat -> (Z.abs (g i j) <= 2 ^ 63)%Z) ->
    (ModMC.colsq n g j = 0%Z -> ln_f (col_f g j) = S754_infinity true) /\
    ((0 < ModMC.colsq n g j)%Z -> exists v, fv (ln_f (col_f g j)) v /\ Rabs (v - half_ln (ModMC.colsq n g j)) <= 100 * eps /\ Rabs v <= 70).
  Proof.
    intros H. pose proof eps_bounds as P. pose proof u_bounds as U.
    assert (V : forall i, exists v, (i < n)%nat -> fv (sq (float_of_int (g i j))) v /\ Rabs (v - IZR (g i j * g i j)) <= 2 * eps * IZR (g i j * g i j)).
    { intros i. destruct (lt_dec i n) as [L|L]; [|exists 0; lia]. destruct (entry_square (g i j) (H i L)) as (v & V). exists v. auto. }
    assert (W : exists v : nat -> R, forall i, (i < n)%nat -> fv (sq (float_of_int (g i j))) (v i) /\ Rabs (v i - IZR (g i j * g i j)) <= 2 * eps * IZR (g i j * g i j)).
    { clear - V. induction n as [|k IH]; [exists (fun _ => 0); lia|]. destruct IH as (v & Hv).
      - intros i. destruct (V i) as (w & Hw). exists w. intros L. apply Hw. lia.
      - destruct (V k) as (w & Hw). exists (fun i => if Nat.eqb i k then w else v i). intros i L.
        destruct (Nat.eqb_spec i k) as [->|N]; [apply Hw; lia|apply Hv; lia]. }
    destruct W as (v & Hv).
    destruct (sum_squares (fun i => sq (float_of_int (g i j))) v (fun i => g i j * g i j)%Z (2 * eps) n) as (r & F & E & B); auto.
    - unfold eps in *. lra.
    - intros i Hi. destruct (Hv i Hi) as (V1 & V2). splits; auto; [nia|]. specialize (H i Hi).
      replace (g i j * g i j)%Z with (Z.abs (g i j) * Z.abs (g i j))%Z by nia. change (2 ^ 126)%Z with (2 ^ 63 * 2 ^ 63)%Z.
      apply Z.mul_le_mono_nonneg; lia.
    - assert (N : 0 <= INR n <= 1000) by (split; [apply pos_INR|rewrite INR_IZR_INZ; apply IZR_le; lia]).
      fold (ModMC.colsq n g j) in *. unfold col_f. set (S := ModMC.colsq n g j) in *. set (f := fold_left _ _ _) in *. clearbody f. clearbody S.
      assert (C : 2 * eps + 2 * INR n * u <= 4 * eps) by nra.
      split; intros HS.
      + subst S. rewrite Rmult_0_r in E. assert (r = 0) as -> by (unfold Rabs in E; destruct (Rcase_abs _); lra).
        destruct (Asqrt _ _ F (or_introl eq_refl)) as (s & Fs & Es). rewrite sqrt_0, Rmult_0_r in Es.
        assert (s = 0) as -> by (unfold Rabs in Es; destruct (Rcase_abs _); lra). apply Aln. exact Fs.
      + assert (S1 : 1 <= IZR S) by (apply (IZR_le 1); lia).
        assert (S2 : IZR S <= IZR (2 ^ 136)).
        { apply IZR_le. transitivity (1000 * 2 ^ 126)%Z; [lia|vm_compute; discriminate]. }
        assert (E4 : Rabs (r - IZR S) <= 4 * eps * IZR S) by (eapply Rle_trans; [exact E|]; apply Rmult_le_compat_r; lra).
        unfold eps in *.
        assert (R1 : IZR S * (1 - / 100000000000) <= r <= IZR S * (1 + / 100000000000)) by (unfold Rabs in E4; destruct (Rcase_abs _); lra).
        destruct (Asqrt _ _ F) as (s & Fs & Es).
        { right. split; [nra|]. assert (L : 2 * IZR (2 ^ 136) <= IZR (2 ^ 200)) by (rewrite <- mult_IZR; apply IZR_le; vm_compute; discriminate). nra. }
        unfold eps in Es.
        assert (Rp : 0 < r) by nra.
        assert (Sp : 0 < sqrt r) by (apply sqrt_lt_R0; auto).
        assert (Ls : ln (sqrt r) = ln r / 2).
        { assert (X : ln (sqrt r * sqrt r) = ln (sqrt r) + ln (sqrt r)) by (apply ln_mult; auto). rewrite sqrt_sqrt in X by lra. lra. }
        destruct (ln_close r (IZR S) (4 * / 1000000000000)) as (_ & L1); [lra|lra|lra|].
        destruct (ln_close s (sqrt r) (/ 1000000000000)) as (Ps & L2); [lra|lra|lra|].
        assert (Lup : ln (IZR S) <= INR 136) by (apply (ln_upper _ 136); [lra|exact S2]).
        assert (Llo : 0 <= ln (IZR S)) by (rewrite <- ln_1; apply ln_mono; lra).
        replace (INR 136) with 136 in Lup by (rewrite INR_IZR_INZ; reflexivity).
        assert (Ds : Rabs (ln s - half_ln S) <= / 100000000000).
        { unfold half_ln. replace (ln s - ln (IZR S) / 2) with ((ln s - ln (sqrt r)) + (ln r - ln (IZR S)) / 2) by (rewrite Ls; field).
          eapply Rle_trans; [apply Rabs_triang|]. unfold Rdiv. rewrite Rabs_mult, (Rabs_right (/ 2)) by lra. lra. }
        assert (s1 : / 2 <= s <= IZR (2 ^ 100)).
        { assert (Q1 : 1 - / 1000 <= sqrt r).
          { rewrite <- (sqrt_square (1 - / 1000)) by lra. apply sqrt_le_1; [nra|lra|]. nra. }
          assert (Q2 : sqrt r <= IZR (2 ^ 70)).
          { rewrite <- (sqrt_square (IZR (2 ^ 70))) by (apply IZR_le; lia). apply sqrt_le_1; [lra|nra|].
            rewrite <- mult_IZR. apply Rle_trans with (2 * IZR (2 ^ 136)); [nra|]. rewrite <- mult_IZR. apply IZR_le. vm_compute. discriminate. }
          assert (Q3 : 2 * IZR (2 ^ 70) <= IZR (2 ^ 100)) by (rewrite <- mult_IZR; apply IZR_le; vm_compute; discriminate).
          unfold Rabs in Es. destruct (Rcase_abs _); split; lra. }
        destruct Aln as (_ & A2). destruct (A2 _ _ Fs s1) as (w & Fw & Ew). unfold eps in Ew. exists w. split; auto.
        assert (Bs : Rabs (ln s) <= 69).
        { unfold half_ln in Ds. apply Rabs_le. unfold Rabs in Ds. destruct (Rcase_abs _); lra. }
        assert (Dw : Rabs (w - half_ln S) <= 100 * / 1000000000000).
        { replace (w - half_ln S) with ((w - ln s) + (ln s - half_ln S)) by ring. eapply Rle_trans; [apply Rabs_triang|]. lra. }
        split; [exact Dw|]. unfold half_ln in Dw. apply Rabs_le. unfold Rabs in Dw. destruct (Rcase_abs _); lra.
  Qed.
End Accurate.

(** ** the order *)
Lemma total_leb_good x y v w : good x v -> good y w -> if total_leb x y then v <= w else w <= v.
Proof.
  assert (X : forall x v, fv x v -> exists q : Qc, value x = Some q /\ v = Q2R q) by (intros z t (q & (_ & E) & <-); eauto).
  intros [(F & B)|(-> & ->)] [(F' & B')|(-> & ->)].
  - destruct (X _ _ F) as (p & Ep & ->). destruct (X _ _ F') as (q & Eq & ->).
    assert (T : total_leb x y = if Qc_eqb p q then implb (sign_bit y) (sign_bit x) else Qle_bool p q).
    { destruct x as [s|s| |s m e], y as [t|t| |t m' e']; try discriminate Ep; try discriminate Eq; unfold total_leb; rewrite ?Ep, ?Eq; reflexivity. }
    rewrite T. destruct (Qc_eqb_spec p q) as [->|N]; [destruct (implb _ _); lra|].
    destruct (Qle_bool p q) eqn:L.
    + apply Qle_bool_iff in L. apply Qle_Rle. exact L.
    + apply Qle_Rle. destruct (Qlt_le_dec q p) as [G|G]; [apply Qlt_le_weak; exact G|].
      apply Qle_bool_iff in G. congruence.
  - destruct (X _ _ F) as (p & Ep & ->).
    assert (T : total_leb x (S754_infinity true) = false) by (destruct x as [s|s| |s m e]; try discriminate Ep; reflexivity).
    rewrite T. unfold Rabs in B. destruct (Rcase_abs _); lra.
  - destruct (X _ _ F') as (p & Ep & ->).
    assert (T : total_leb (S754_infinity true) y = true) by (destruct y as [s|s| |s m e]; try discriminate Ep; reflexivity).
    rewrite T. unfold Rabs in B'. destruct (Rcase_abs _); lra.
  - cbn. lra.
Qed.

Lemma insert_total_good x v l vs : good x v -> Forall2 good l vs -> exists ws, Forall2 good (insert_total x l) ws /\ Permutation (v :: vs) ws.
Proof.
  intros G F. induction F as [|y w l vs Gy F IH]; cbn [insert_total].
  - exists [v]. split; auto.
  - destruct (total_leb x y).
    + exists (v :: w :: vs). split; auto.
    + destruct IH as (ws & F' & P). exists (w :: ws). split; auto. eapply perm_trans; [apply perm_swap|]. constructor. exact P.
Qed.

Lemma insert_total_sorted x v l vs : good x v -> Forall2 good l vs -> StronglySorted Rle vs ->
  exists ws, Forall2 good (insert_total x l) ws /\ Permutation (v :: vs) ws /\ StronglySorted Rle ws.
Proof.
  intros G F. induction F as [|y w l vs Gy F IH]; cbn [insert_total]; intros S.
  - exists [v]. split; auto. split; auto. repeat constructor.
  - inversion S as [|? ? S' Fw]; subst. pose proof (total_leb_good x y v w G Gy) as T. destruct (total_leb x y).
    + exists (v :: w :: vs). split; auto. split; auto. constructor; auto. constructor; auto.
      eapply Forall_impl; [|exact Fw]. intros; lra.
    + destruct (IH S') as (ws & F' & P & S2). exists (w :: ws). split; auto. split.
      * eapply perm_trans; [apply perm_swap|]. constructor. exact P.
      * constructor; auto. eapply Permutation_Forall; [exact P|]. constructor; auto.
Qed.

Lemma sort_total_good l vs : Forall2 good l vs -> exists ws, Forall2 good (sort_total l) ws /\ Permutation vs ws /\ StronglySorted Rle ws.
Proof.
  intros F. induction F as [|x v l vs G F (ws & F' & P & S)]; [exists []; split; [constructor|split; [auto|constructor]]|].
  cbn [sort_total fold_right]. fold (sort_total l).
  destruct (insert_total_sorted x v _ ws G F' S) as (ws' & F2 & P2 & S2). exists ws'. split; auto. split; auto.
  eapply perm_trans; [|exact P2]. constructor. exact P.
Qed.

Lemma max_total_good l vs : l <> [] -> Forall2 good l vs -> exists m w, max_total l = Some m /\ good m w /\ Forall (fun v => v <= w) vs.
Proof.
  intros N F. inversion F as [|x v l' vs' G F']; subst; [congruence|]. cbn [max_total]. clear N F. revert x v G.
  induction F' as [|y w l vs Gy F IH]; intros x v G; cbn [fold_left].
  - exists x, v. split; auto. split; auto. constructor; [lra|constructor].
  - pose proof (total_leb_good x y v w G Gy) as T. destruct (total_leb x y).
    + destruct (IH y w Gy) as (m & z & E & Gm & Fz). exists m, z. split; auto. split; auto. inversion Fz; subst.
      constructor; [lra|]. constructor; auto.
    + destruct (IH x v G) as (m & z & E & Gm & Fz). exists m, z. split; auto. split; auto. inversion Fz; subst.
      constructor; [lra|]. constructor; [lra|]. auto.
Qed.

Lemma sumR_perm l l' : Permutation l l' -> sumR l = sumR l'.
Proof. unfold sumR. induction 1; cbn [fold_right] in *; lra. Qed.
Lemma sumR_app l l' : sumR (l ++ l') = sumR l + sumR l'.
Proof. unfold sumR. induction l as [|x l IH]; cbn [app fold_right]; [lra|]. rewrite IH. lra. Qed.

(** the sum without the smallest *)
Lemma tail_sum la va m w : Forall2 (fun x v => fv x v /\ Rabs v <= 70) la va -> la <> [] -> good m w ->
  exists ws y, Forall2 (fun x v => fv x v /\ Rabs v <= 70) (tl (sort_total (la ++ [m]))) ws /\
    sumR ws = sumR va + w - y /\ y <= w /\ Forall (fun v => y <= v) va.
Proof.
  intros F N G.
  assert (F1 : Forall2 good (la ++ [m]) (va ++ [w])).
  { apply Forall2_app; [|constructor; auto]. clear - F. induction F; constructor; auto. left. auto. }
  destruct (sort_total_good _ _ F1) as (ws & F2 & P & S).
  destruct ws as [|y ws]; [apply Permutation_sym, Permutation_nil in P; destruct va; discriminate P|].
  inversion F2 as [|x0 y0 l0 ws0 Gy F3 E1 E2]; subst. cbn [tl]. exists ws, y.
  inversion S as [|? ? S' Fy]; subst.
  assert (Fall : Forall (fun v => y <= v) (va ++ [w])).
  { eapply Permutation_Forall; [apply Permutation_sym; exact P|]. constructor; [lra|auto]. }
  apply Forall_app in Fall as (Fa & Fw). inversion Fw as [|? ? Hw _]; subst.
  assert (B : Forall (fun v => -70 <= v) ws).
  { assert (Ba : Forall (fun v => -70 <= v) va).
    { clear - F. induction F as [|x v la va (_ & B) F IH]; constructor; auto. unfold Rabs in B. destruct (Rcase_abs _); lra. }
    assert (I : In y (va ++ [w])) by (eapply Permutation_in; [apply Permutation_sym; exact P|left; auto]).
    apply in_app_iff in I as [I|[I|[]]].
    - rewrite Forall_forall in Ba. specialize (Ba y I). eapply Forall_impl; [|exact Fy]. intros; lra.
    - subst w. assert (P' : Permutation (y :: va) (y :: ws)) by (eapply perm_trans; [apply Permutation_cons_append|exact P]).
      apply Permutation_cons_inv in P'. eapply Permutation_Forall; eauto. }
  split; [|split; [|split]]; auto.
  - clear - F3 B. induction F3 as [|x v l ws G F IH]; constructor; inversion B; subst; auto. destruct G as [G|(_ & ->)]; auto. lra.
  - pose proof (sumR_perm _ _ P) as E. rewrite sumR_app in E. cbn [sumR fold_right] in E. fold (sumR ws) in E. lra.
Qed.

(** ** Hadamard's inequality in logarithms *)
Lemma product_pos l : Forall (fun x => 0 <= x)%Z l -> (0 < product l)%Z -> Forall (fun x => 0 < x)%Z l.
Proof.
  induction 1 as [|x l H F IH]; intros P; constructor; cbn [product fold_right] in P; fold (product l) in P.
  - apply Z.lt_0_mul in P. lia.
  - apply IH. apply Z.lt_0_mul in P. lia.
Qed.
Lemma ln_product l : Forall (fun x => 0 < x)%Z l -> (0 < product l)%Z /\ ln (IZR (product l)) = 2 * sumR (map half_ln l).
Proof.
  unfold product, sumR. induction 1 as [|x l H F (P & IH)]; cbn [fold_right map].
  - split; [lia|]. rewrite ln_1. lra.
  - split; [nia|]. rewrite mult_IZR, ln_mult by (apply IZR_lt; auto). rewrite IH. unfold half_ln. lra.
Qed.

Lemma hadamard_ln n g : ModMC.zdet n g <> 0%Z ->
  (forall j, (j < n)%nat -> (0 < ModMC.colsq n g j)%Z) /\
  ln (IZR (Z.abs (ModMC.zdet n g))) <= sumR (map (fun j => half_ln (ModMC.colsq n g j)) (seq 0 n)).
Proof.
  intros D. pose proof (@ModMC.hadamard' n g) as H. rewrite big_product in H. set (d := ModMC.zdet n g) in *. clearbody d.
  assert (P : (0 < product (map (ModMC.colsq n g) (seq 0 n)))%Z) by nia.
  apply product_pos in P; [|apply Forall_forall; intros x Hx; apply in_map_iff in Hx as (j & <- & _); apply ModMC.colsq_nonneg].
  destruct (ln_product _ P) as (_ & L). rewrite map_map in L. split.
  - intros j Hj. rewrite Forall_forall in P. apply P. apply in_map. apply in_seq. lia.
  - assert (X : ln (IZR (Z.abs d) * IZR (Z.abs d)) = ln (IZR (Z.abs d)) + ln (IZR (Z.abs d))) by (apply ln_mult; apply IZR_lt; lia).
    assert (Y : ln (IZR (Z.abs d) * IZR (Z.abs d)) <= ln (IZR (product (map (ModMC.colsq n g) (seq 0 n))))).
    { rewrite <- mult_IZR. apply ln_mono; [apply IZR_lt; nia|apply IZR_le; nia]. }
    lra.
Qed.

Lemma sumR_close (f g : nat -> R) e l : (forall j, In j l -> Rabs (f j - g j) <= e) -> Rabs (sumR (map f l) - sumR (map g l)) <= INR (length l) * e.
Proof.
  induction l as [|j l IH]; intros H.
  - cbn [map sumR fold_right length]. rewrite Rminus_0_r, Rabs_R0. simpl. lra.
  - cbn [map sumR fold_right length]. fold (sumR (map f l)). fold (sumR (map g l)). rewrite S_INR.
    replace (f j + sumR (map f l) - (g j + sumR (map g l))) with ((f j - g j) + (sumR (map f l) - sumR (map g l))) by ring.
    eapply Rle_trans; [apply Rabs_triang|]. pose proof (H j (or_introl eq_refl)). assert (Rabs (sumR (map f l) - sumR (map g l)) <= INR (length l) * e) by (apply IH; intros; apply H; right; auto). lra.
Qed.

Lemma sumR_replace (f : nat -> R) (c : R) l n : (l < n)%nat ->
  sumR (map (fun j => if Nat.eqb j l then c else f j) (seq 0 n)) = sumR (map f (seq 0 n)) - f l + c.
Proof.
  intros H. replace n with (l + S (n - l - 1))%nat by lia. rewrite seq_app, !map_app, !sumR_app. cbn [plus seq map sumR fold_right].
  rewrite Nat.eqb_refl.
  rewrite (map_ext_in _ f (seq 0 l)) by (intros q Hq; apply in_seq in Hq; destruct (Nat.eqb_spec q l); [lia|auto]).
  rewrite (map_ext_in _ f (seq (S l) _)) by (intros q Hq; apply in_seq in Hq; destruct (Nat.eqb_spec q l); [lia|auto]).
  unfold sumR. lra.
Qed.

(** ** the final formula *)
Lemma float_of_int_exact z : (Z.abs z < 2 ^ 53)%Z -> fv (float_of_int z) (IZR z).
Proof.
  intros H. exists (ZQ z). split; [|apply R_ZQ].
  replace (ZQ z) with (ZQ z * pow2 0)%Qc by (replace (pow2 0) with 1%Qc by (apply Qc_is_canon; reflexivity); ring).
  apply normalize_exact. exists z, 0%Z. splits; auto; lia.
Qed.

Lemma phi_bounds : 1 <= phi <= 2 /\ 0 <= ln phi <= 1.
Proof.
  assert (B : 2 <= sqrt 5 <= 3).
  { split; [rewrite <- (sqrt_square 2) by lra|rewrite <- (sqrt_square 3) by lra]; apply sqrt_le_1; lra. }
  assert (P : 1 <= phi <= 2) by (unfold phi; lra). split; auto. split.
  - rewrite <- ln_1. apply ln_mono; lra.
  - pose proof (ln_le_minus phi ltac:(lra)). lra.
Qed.

Lemma ln_prime : 14 <= ln (IZR 9999991) <= 24.
Proof.
  split.
  - apply Rle_trans with (ln (exp 14)); [rewrite ln_exp; lra|]. apply ln_mono; [apply exp_pos|].
    assert (X : forall k, exp (INR k) = exp 1 ^ k).
    { induction k as [|k IH]; [apply exp_0|]. rewrite S_INR, exp_plus, IH. cbn [pow]. ring. }
    replace 14 with (INR 14) by (rewrite INR_IZR_INZ; reflexivity). rewrite X.
    apply Rle_trans with (3 ^ 14); [apply pow_incr; split; [left; apply exp_pos|apply exp_le_3]|]. rewrite pow_IZR. apply IZR_le. vm_compute. discriminate.
  - replace 24 with (INR 24) by (rewrite INR_IZR_INZ; reflexivity). apply ln_upper; [apply IZR_lt; reflexivity|]. apply IZR_le. vm_compute. discriminate.
Qed.

Lemma Rabs_bounds x e : Rabs x <= e -> - e <= x <= e.
Proof. intros H. unfold Rabs in H. destruct (Rcase_abs x); lra. Qed.

Section Formula.
  Variables sqrt_f ln_f : float -> float.
  Hypothesis Asqrt : sqrt_accurate sqrt_f.
  Hypothesis Aln : ln_accurate ln_f.

  Lemma golden_ok : exists g, fv (golden_f sqrt_f) g /\ Rabs (g - phi) <= / 100000000000.
  Proof.
    pose proof u_bounds as U. assert (B : 2 <= sqrt 5 <= 3).
    { split; [rewrite <- (sqrt_square 2) by lra|rewrite <- (sqrt_square 3) by lra]; apply sqrt_le_1; lra. }
    assert (Big : 1000 <= IZR (2 ^ 200)) by (apply IZR_le; vm_compute; discriminate).
    destruct (Asqrt _ 5 (float_of_int_exact 5 eq_refl)) as (s & Fs & Es); [right; lra|]. unfold eps in Es. apply Rabs_bounds in Es.
    destruct (fadd_real f_one (sqrt_f (float_of_int 5)) 1 s fv_one Fs) as (t & Ft & Et); [apply Rabs_le; lra|].
    rewrite (Rabs_right (1 + s)) in Et by lra. apply Rabs_bounds in Et.
    assert (T : 1 <= t <= 5) by (split; nra).
    destruct (fdiv_real _ (float_of_int 2) t 2 Ft (float_of_int_exact 2 eq_refl)) as (g & Fg & Eg); [lra|apply Rabs_le; lra|].
    rewrite (Rabs_right (t / 2)) in Eg by lra. apply Rabs_bounds in Eg.
    exists g. split; [exact Fg|]. unfold phi. apply Rabs_le. split; nra.
  Qed.

  Lemma formula_ok ld L : fv ld L -> Rabs L <= 72000 ->
    exists f, fv (f_div (f_mul (float_of_int 2) (f_add ld (ln_f (golden_f sqrt_f)))) (ln_f (float_of_int 9999991))) f /\
      Rabs (f - 2 * (L + ln phi) / ln (IZR 9999991)) <= / 20000000.
  Proof.
    intros F B. pose proof u_bounds as U. pose proof phi_bounds as (P1 & P2). pose proof ln_prime as LP.
    assert (Big : 1000000 <= IZR (2 ^ 200)) by (apply IZR_le; vm_compute; discriminate).
    destruct golden_ok as (g & Fg & Eg). destruct Aln as (_ & A). apply Rabs_bounds in B.
    destruct (ln_close g phi (/ 100000000000)) as (Pg & Lg); [lra|lra|eapply Rle_trans; [exact Eg|]; nra|].
    apply Rabs_bounds in Eg. apply Rabs_bounds in Lg.
    assert (Big2 : 100000000 <= IZR (2 ^ 100)) by (apply IZR_le; vm_compute; discriminate).
    destruct (A _ g Fg) as (lg & Flg & Elg); [lra|]. unfold eps in Elg.
    assert (Ag : Rabs (ln g) <= 2) by (apply Rabs_le; lra). 
    assert (Elg' : Rabs (lg - ln g) <= / 100000000000) by lra. apply Rabs_bounds in Elg'. clear Elg.
    destruct (fadd_real ld _ L lg F Flg) as (s1 & F1 & E1); [apply Rabs_le; lra|].
    assert (A1 : Rabs (L + lg) <= 72003) by (apply Rabs_le; lra).
    assert (E1' : Rabs (s1 - (L + lg)) <= / 100000000000) by nra. apply Rabs_bounds in E1'. clear E1.
    assert (A2 : Rabs (2 * s1) <= 144008) by (apply Rabs_le; lra).
    destruct (fmul_real _ _ 2 s1 (float_of_int_exact 2 eq_refl) F1) as (m & Fm & Em); [lra|].
    assert (Em' : Rabs (m - 2 * s1) <= / 10000000000) by nra. apply Rabs_bounds in Em'. clear Em.
    destruct (A _ _ (float_of_int_exact 9999991 eq_refl)) as (lp & Flp & Elp); [lra|]. unfold eps in Elp.
    rewrite (Rabs_right (ln _)) in Elp by lra. set (P := ln (IZR 9999991)) in *. clearbody P.
    assert (Elp' : Rabs (lp - P) <= / 30000000000) by lra. apply Rabs_bounds in Elp'. clear Elp.
    set (Y := 2 * (L + ln phi)). assert (Y1 : Rabs Y <= 144100) by (apply Rabs_le; unfold Y; lra).
    assert (D : Rabs (m - Y) <= / 3000000000) by (apply Rabs_le; unfold Y; lra).
    assert (Q : Rabs (m / lp - Y / P) <= / 30000000).
    { replace (m / lp - Y / P) with (((m - Y) + Y * ((P - lp) * / P)) * / lp) by (field; lra).
      rewrite Rabs_mult, (Rabs_right (/ lp)) by (apply Rle_ge; left; apply Rinv_0_lt_compat; lra).
      assert (I1 : / P <= / 14) by (apply Rinv_le_contravar; lra). assert (I2 : / lp <= / 13) by (apply Rinv_le_contravar; lra).
      assert (I3 : 0 < / P) by (apply Rinv_0_lt_compat; lra). assert (I4 : 0 < / lp) by (apply Rinv_0_lt_compat; lra).
      assert (X : Rabs (Y * ((P - lp) * / P)) <= 144100 * (/ 30000000000 * / 14)).
      { rewrite !Rabs_mult, (Rabs_right (/ P)) by lra. apply Rmult_le_compat; auto using Rabs_pos.
        - apply Rmult_le_pos; [apply Rabs_pos|lra].
        - apply Rmult_le_compat; auto using Rabs_pos; [lra|apply Rabs_le; lra]. }
      apply Rle_trans with ((/ 3000000000 + 144100 * (/ 30000000000 * / 14)) * / 13).
      - apply Rmult_le_compat; [apply Rabs_pos|lra| |lra]. eapply Rle_trans; [apply Rabs_triang|]. lra.
      - lra. }
    assert (Q2 : Rabs (Y / P) <= 144100 / 14).
    { unfold Rdiv. rewrite Rabs_mult, (Rabs_right (/ P)) by (apply Rle_ge; left; apply Rinv_0_lt_compat; lra).
      apply Rmult_le_compat; auto using Rabs_pos; [left; apply Rinv_0_lt_compat; lra|apply Rinv_le_contravar; lra]. }
    assert (Q3 : Rabs (m / lp) <= 144102 / 14).
    { replace (m / lp) with ((m / lp - Y / P) + Y / P) by ring. eapply Rle_trans; [apply Rabs_triang|]. lra. }
    destruct (fdiv_real _ _ m lp Fm Flp) as (f & Ff & Ef); [lra|lra|]. exists f. split; [exact Ff|].
    replace (f - Y / P) with ((f - m / lp) + (m / lp - Y / P)) by ring. eapply Rle_trans; [apply Rabs_triang|]. nra.
  Qed.
End Formula.

Lemma ceil_ok f r : fv f r -> r <= IZR (2 ^ 63) -> r <= INR (Z.to_nat (ceil_u64 f)).
Proof.
  intros (q & (_ & E) & <-) B.
  assert (C : ceil_u64 f = Z.max 0 (Z.min (2 ^ 64 - 1) (Qceiling q))).
  { destruct f as [s|s| |s m e]; try discriminate E; unfold ceil_u64; rewrite E; reflexivity. }
  rewrite C, INR_IZR_INZ, Z2Nat.id by lia.
  assert (L : Q2R q <= IZR (Qceiling q)).
  { pose proof (Qle_ceiling q) as X. apply Qle_Rle in X. unfold Q2R at 2 in X. cbn [inject_Z Qnum Qden] in X. lra. }
  assert (M : IZR (2 ^ 63) <= IZR (2 ^ 64 - 1)) by (apply IZR_le; vm_compute; discriminate).
  destruct (Z.max_spec 0 (Z.min (2 ^ 64 - 1) (Qceiling q))) as [(L1 & ->)|(L1 & ->)].
  - destruct (Z.min_spec (2 ^ 64 - 1) (Qceiling q)) as [(L2 & ->)|(L2 & ->)]; lra.
  - destruct (Z.min_spec (2 ^ 64 - 1) (Qceiling q)) as [(L2 & E2)|(L2 & E2)]; rewrite E2 in L1; [lia|]. apply IZR_le in L1. lra.
Qed.
