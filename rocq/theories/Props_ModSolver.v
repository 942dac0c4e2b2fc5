(** Properties C19-C24 of src/arithmetic/modular_solver.rs. *)
From Coq Require Import List ZArith Lia Bool PeanoNat Znumtheory QArith Qcanon Reals Lra.
From Verif Require Import Base Partition Vec Matrix ZQ ModSolver ModSolve Dixon ModFinal.
From Verif Require ModMC.
Import ListNotations.
Open Scope Z_scope.

(** The arithmetic: ideal ([Ret], every integer is fine), or that of an i64 in
    a debug build ([chk64], panics on overflow) with [bound] within range. *)
Definition machine (chk : Z -> outcome Z) (bound : Z) : Prop := chk = (fun z => Ret z) \/ (chk = chk64 /\ bound < 2 ^ 63).

Lemma machine_ok chk bound : 0 <= bound -> machine chk bound ->
  exists ok : Z -> Prop, (forall z, ok z -> chk z = Ret z) /\ (forall y z, Z.abs y <= Z.abs z -> ok z -> ok y) /\
    forall z, Z.abs z <= bound -> ok z.
Proof.
  intros Hb [->|[-> H]].
  - exists (fun _ => True). auto.
  - exists (fun z => Z.abs z < 2 ^ 63). splits.
    + intros z Hz. unfold chk64, in64. destruct (Z.leb_spec (- 2 ^ 63) z); [|lia]. destruct (Z.ltb_spec z (2 ^ 63)); [auto|lia].
    + intros; lia.
    + intros; lia.
Qed.

(** ** C19 *)
Theorem C19_modular_inverse : forall chk a m, machine chk (Z.max a m) -> 0 <= a -> 2 <= m ->
  (Z.gcd a m = 1 -> exists t, modular_inverse chk a m = Ret (Some t) /\ 0 <= t < m /\ (a * t) mod m = 1) /\
  (Z.gcd a m <> 1 -> modular_inverse chk a m = Ret None).
Proof.
  intros chk a m M Ha Hm. destruct (machine_ok chk (Z.max a m) ltac:(lia) M) as (ok & O1 & O2 & O3).
  destruct (minv_ok chk ok O1 O2 a m) as (o & E & P); try lia; [apply O3; lia|].
  rewrite E. destruct o as [t|].
  - destruct P as (P1 & P2 & P3). split; [intros _|tauto]. exists t. splits; auto; try lia.
    apply cong_mod in P2; [|lia]. rewrite P2. apply Z.mod_small. lia.
  - split; [tauto|auto].
Qed.
Print Assumptions C19_modular_inverse.

Example C19_case : machine chk64 (Z.max 7 26) /\ modular_inverse chk64 7 26 = Ret (Some 15) /\ modular_inverse chk64 6 26 = Ret None.
Proof. splits; try reflexivity. right. split; reflexivity. Qed.

(** for a negative argument the claim fails: 4 * (-1) = 1 (mod 5) *)
Theorem C19_negative_refuted : exists a m t, 2 <= m /\ (a * t) mod m = 1 /\ modular_inverse chk64 a m = Ret None.
Proof. exists (-1), 5, 4. splits; try reflexivity. lia. Qed.
(** and for modulus 1 the result is not below the modulus *)
Theorem C19_modulus_1_refuted : modular_inverse chk64 1 1 = Ret (Some 1).
Proof. reflexivity. Qed.

(** ** C20 *)
(** entry (i, j) of a list of rows *)
Definition at_ (a : zmat) (i j : nat) : Z := nth j (nth i a []) 0.
(** determinant: the Leibniz determinant of mathcomp *)
Definition det (n : nat) (a : zmat) : Z := ModMC.zdet n (at_ a).
(** [x] is a negative multiple of [p] *)
Definition negative_multiple (p x : Z) : Prop := x < 0 /\ (p | x).

Theorem C20_modular_matrix_inverse : forall chk p n a, machine chk (p * p) -> prime p -> (0 < n)%nat -> rect n n a ->
  (forall i j, (i < n)%nat -> (j < n)%nat -> ~ negative_multiple p (at_ a i j)) ->
  (~ (p | det n a) -> exists c, modular_matrix_inverse chk a p = Ret (Some c) /\ rect n n c /\
     (forall i j, (i < n)%nat -> (j < n)%nat -> 0 <= at_ c i j < p) /\
     (forall i j, (i < n)%nat -> (j < n)%nat -> (zs n (fun k => at_ c i k * at_ a k j)) mod p = if Nat.eqb i j then 1 else 0)) /\
  ((p | det n a) -> modular_matrix_inverse chk a p = Ret None).
Proof.
  intros chk p n a M Pp Hn Ra Hneg. assert (Hp : 1 < p) by (destruct Pp; lia).
  destruct (machine_ok chk (p * p) ltac:(nia) M) as (ok & O1 & O2 & O3).
  assert (okp : ok (p * p)) by (apply O3; nia).
  rewrite (rect_eq_tab n n a 0 Ra).
  assert (Ed : det n (tab n n (fun i j => nth j (nth i a []) 0)) = ModMC.zdet n (at_ a)).
  { unfold det. rewrite <- (rect_eq_tab n n a 0 Ra). auto. }
  rewrite Ed. clear Ed.
  assert (At : forall g i j, (i < n)%nat -> (j < n)%nat -> at_ (tab n n g) i j = g i j).
  { intros g i j Hi Hj. unfold at_. rewrite (nth_error_nth _ _ _ (tab_row n n g i Hi)).
    apply nth_error_nth. apply nth_error_map_seq. auto. }
  destruct (minverse_ok chk ok O1 O2 p Pp okp n (at_ a) Hn Hneg) as [(c & E & R & HC)|(E & k & x & Hk & Xk & Nx)]; unfold at_ in E at 1; rewrite E.
  - pose proof (ModMC.left_inverse_det Hp HC). split; [intros _|tauto]. eexists. splits; [reflexivity|apply rect_tab| |].
    + intros i j Hi Hj. rewrite At by auto. apply R; auto.
    + intros i j Hi Hj. specialize (HC i j Hi Hj). apply cong_mod in HC; [|lia].
      rewrite (zs_ext n _ (fun k => c i k * at_ a k j)).
      * rewrite HC. destruct (Nat.eqb i j); apply Z.mod_small; lia.
      * intros k Hk. rewrite !At by auto. auto.
  - pose proof (ModMC.null_vector_det Hk Xk Nx) as D. split; [tauto|auto].
Qed.
Print Assumptions C20_modular_matrix_inverse.

Example C20_case : machine chk64 (7 * 7) /\ rect 3 3 [[1; -2; 3]; [0; 1; 4]; [5; 6; 1]] /\
  modular_matrix_inverse chk64 [[1; -2; 3]; [0; 1; 4]; [5; 6; 1]] 7 = Ret (Some [[2; 1; 4]; [1; 0; 4]; [5; 2; 6]]) /\
  modular_matrix_inverse chk64 [[1; 2]; [3; 6]] 7 = Ret None.
Proof. splits; try reflexivity. - right; split; reflexivity. - split; [reflexivity|repeat constructor]. Qed.

(** an invertible matrix with an entry -p makes it panic *)
Theorem C20_negative_multiple_refuted : exists p a, prime p /\ rect 2 2 a /\ ~ (p | at_ a 0 0 * at_ a 1 1 - at_ a 0 1 * at_ a 1 0) /\
  modular_matrix_inverse chk64 a p = Panic.
Proof.
  exists 5, [[-5; 1]; [1; 0]]. splits; try reflexivity.
  - exact prime5.
  - split; [reflexivity|repeat constructor].
  - intros [k Hk]. unfold at_ in Hk. simpl in Hk. lia.
Qed.

(** ** C21 *)
(** [lead r j]: the first nonzero entry of the row [r] is at [j] *)
Definition lead (r : list Z) (j : nat) : Prop := nth j r 0 <> 0 /\ forall k, (k < j)%nat -> nth k r 0 = 0.
(** row echelon form: a row below a row with leading entry at [j] is zero up to [j];
    below a zero row all rows are zero *)
Definition row_echelon (m : zmat) : Prop :=
  forall i i' r r', (i < i')%nat -> nth_error m i = Some r -> nth_error m i' = Some r' ->
    (forall j, lead r j -> forall k, (k <= j)%nat -> nth k r' 0 = 0) /\
    ((forall k, nth k r 0 = 0) -> forall k, nth k r' 0 = 0).

Lemma identity_block_echelon nr nc e : rect nr nc e ->
  (forall i j, (i < nr)%nat -> (j < nc)%nat -> (j < nr)%nat -> at_ e i j = if Nat.eqb i j then 1 else 0) -> row_echelon e.
Proof.
  intros [L F] I i i' r r' Hi E E'. assert (Hi' : (i' < nr)%nat) by (rewrite <- L; apply nth_error_Some; congruence).
  assert (Lr : length r = nc) by (rewrite Forall_forall in F; apply F; eapply nth_error_In; eauto).
  assert (Lr' : length r' = nc) by (rewrite Forall_forall in F; apply F; eapply nth_error_In; eauto).
  assert (Er : forall j, nth j r 0 = at_ e i j) by (intros j; unfold at_; rewrite (nth_error_nth _ _ _ E); auto).
  assert (Er' : forall j, nth j r' 0 = at_ e i' j) by (intros j; unfold at_; rewrite (nth_error_nth _ _ _ E'); auto).
  split.
  - intros j [Hj Hlt] k Hk.
    assert (Hjc : (j < nc)%nat). { destruct (Nat.lt_ge_cases j nc); auto. rewrite nth_overflow in Hj by lia. congruence. }
    destruct (Nat.lt_ge_cases i nc) as [Hin|Hin].
    + (* row i has its leading entry at i *)
      assert (j <= i)%nat.
      { destruct (Nat.le_gt_cases j i); auto. exfalso.
        specialize (Hlt i ltac:(lia)) as Z0.
        rewrite Er, I in Z0 by lia. rewrite Nat.eqb_refl in Z0. discriminate. }
      rewrite Er', I by lia. destruct (Nat.eqb_spec i' k); [lia|auto].
    + exfalso. apply Hj. rewrite Er, I by lia. destruct (Nat.eqb_spec i j); [lia|auto].
  - intros Z0 k. destruct (Nat.lt_ge_cases k nc) as [Hk|Hk]; [|apply nth_overflow; lia].
    destruct (Nat.lt_ge_cases i nc) as [Hin|Hin].
    + specialize (Z0 i). rewrite Er, I in Z0 by lia. rewrite Nat.eqb_refl in Z0. discriminate.
    + rewrite Er', I by lia. destruct (Nat.eqb_spec i' k); [lia|auto].
Qed.

(** what holds: the result has entries in 0..p and the same null space modulo p,
    and if the leading columns are independent modulo p it is in row echelon form and starts with
    an identity block *)
Theorem C21_row_echelon : forall chk p nr nc a, machine chk (p * p) -> prime p -> (0 < nr)%nat -> rect nr nc a ->
  (forall i j, (i < nr)%nat -> (j < nc)%nat -> ~ negative_multiple p (at_ a i j)) ->
  exists e, modular_row_echelon_form chk a p = Ret e /\ rect nr nc e /\
    (forall i j, (i < nr)%nat -> (j < nc)%nat -> 0 <= at_ e i j < p) /\
    (forall w : nat -> Z,
       (forall i, (i < nr)%nat -> (p | zs nc (fun j => at_ a i j * w j))) <-> (forall i, (i < nr)%nat -> (p | zs nc (fun j => at_ e i j * w j)))) /\
    ((forall w : nat -> Z, (forall j, (Nat.min nr nc <= j)%nat -> w j = 0) ->
        (forall i, (i < nr)%nat -> (p | zs nc (fun j => at_ a i j * w j))) -> forall j, (p | w j)) ->
     row_echelon e /\ forall i j, (i < nr)%nat -> (j < nc)%nat -> (j < nr)%nat -> at_ e i j = if Nat.eqb i j then 1 else 0).
Proof.
  intros chk p nr nc a M Pp Hn Ra Hneg. assert (Hp : 1 < p) by (destruct Pp; lia).
  destruct (machine_ok chk (p * p) ltac:(nia) M) as (ok & O1 & O2 & O3).
  assert (okp : ok (p * p)) by (apply O3; nia).
  assert (At : forall g i j, (i < nr)%nat -> (j < nc)%nat -> at_ (tab nr nc g) i j = g i j).
  { intros g i j Hi Hj. unfold at_. rewrite (nth_error_nth _ _ _ (tab_row nr nc g i Hi)).
    apply nth_error_nth. apply nth_error_map_seq. auto. }
  destruct (mref_ok chk ok O1 O2 p Pp okp nr nc (at_ a) Hn Hneg) as (g' & E & R & N & D).
  exists (tab nr nc g'). rewrite (rect_eq_tab nr nc a 0 Ra) at 1. splits.
  - exact E.
  - apply rect_tab.
  - intros i j Hi Hj. rewrite At by auto. apply R; auto.
  - intros w. specialize (N w). unfold null, cong in N.
    assert (X : forall i, (i < nr)%nat -> zs nc (fun j => at_ (tab nr nc g') i j * w j) = zs nc (fun j => g' i j * w j)).
    { intros i Hi. apply zs_ext. intros j Hj. rewrite At by auto. auto. }
    split; intros H i Hi.
    + rewrite X by auto. specialize (proj1 N) as N1. rewrite <- (Z.sub_0_r (zs _ _)). apply N1; auto. intros i' Hi'. rewrite Z.sub_0_r. auto.
    + rewrite <- (Z.sub_0_r (zs _ _)). apply (proj2 N); auto. intros i' Hi'. rewrite Z.sub_0_r. rewrite <- X by auto. auto.
  - intros Ind. destruct D as [D|(k & x & H1 & H2 & H3 & H4 & H5)].
    + assert (I : forall i j, (i < nr)%nat -> (j < nc)%nat -> (j < nr)%nat -> at_ (tab nr nc g') i j = if Nat.eqb i j then 1 else 0).
      { intros i j Hi Hj Hjr. rewrite At by auto. auto. }
      split; [|exact I]. apply identity_block_echelon with nr nc; auto. apply rect_tab.
    + exfalso. assert (C : (p | x k)).
      { apply Ind.
        - intros j Hj. apply H4. lia.
        - intros i Hi. specialize (H5 i Hi). unfold cong in H5. rewrite Z.sub_0_r in H5. auto. }
      rewrite H3 in C. apply Z.divide_1_r_nonneg in C; lia.
Qed.
Print Assumptions C21_row_echelon.

Example C21_case : modular_row_echelon_form chk64 [[2; 4; 1]; [3; 3; -1]] 7 = Ret [[1; 0; 0]; [0; 1; 2]] /\ row_echelon [[1; 0; 0]; [0; 1; 2]].
Proof.
  split; [reflexivity|]. intros i i' r r' Hi E E'.
  destruct i as [|[|[|]]], i' as [|[|[|]]]; simpl in *; try lia; try discriminate; injection E as <-; injection E' as <-.
  split.
  - intros j [Hj Hl]. destruct j; [|specialize (Hl O ltac:(lia)); discriminate]. intros k Hk. assert (k = O) as -> by lia. reflexivity.
  - intros H. specialize (H O). discriminate.
Qed.

(** the echelon claim itself is false *)
Theorem C21_row_echelon_refuted : exists p a e, prime p /\ modular_row_echelon_form chk64 a p = Ret e /\ ~ row_echelon e.
Proof.
  exists 5, [[0; 0; 1]; [0; 1; 0]], [[0; 0; 1]; [0; 1; 0]]. splits; [exact prime5|reflexivity|].
  intros H. specialize (H 0%nat 1%nat _ _ ltac:(lia) eq_refl eq_refl) as [H _].
  specialize (H 2%nat). assert (L : lead [0; 0; 1] 2).
  { split; [discriminate|]. intros k Hk. destruct k as [|[|]]; [reflexivity|reflexivity|lia]. }
  specialize (H L 1%nat ltac:(lia)). discriminate.
Qed.

(** ** C22 *)
(** the golden ratio *)
Definition phi : R := ((1 + sqrt 5) / 2)%R.

Lemma phi_sq : (phi * phi = (3 + sqrt 5) / 2)%R.
Proof.
  assert (S : (sqrt 5 * sqrt 5 = 5)%R) by (apply sqrt_sqrt; lra). unfold phi.
  replace ((1 + sqrt 5) / 2 * ((1 + sqrt 5) / 2))%R with ((1 + 2 * sqrt 5 + sqrt 5 * sqrt 5) / 4)%R by field. rewrite S. field.
Qed.

(** the integer test [golden_le d h] is phi^2 d <= h *)
Lemma golden_real d h : 0 <= d -> golden_le d h = true <-> (phi * phi * IZR d <= IZR h)%R.
Proof.
  intros Hd. rewrite golden_le_spec, phi_sq.
  assert (S0 : (0 <= sqrt 5)%R) by apply sqrt_pos.
  assert (S : (sqrt 5 * sqrt 5 = 5)%R) by (apply sqrt_sqrt; lra).
  assert (Hd' : (0 <= IZR d)%R) by (apply IZR_le; auto).
  set (D := IZR d) in *. set (H := IZR h) in *. set (q := sqrt 5) in *.
  assert (E : ((3 + q) / 2 * D <= H)%R <-> (q * D <= 2 * H - 3 * D)%R) by (split; intros; lra). rewrite E.
  assert (E1 : (0 <= 2 * h - 3 * d) <-> (0 <= 2 * H - 3 * D)%R).
  { unfold H, D. rewrite <- !mult_IZR, <- minus_IZR. split; [apply IZR_le|apply le_IZR]. }
  assert (E2 : (5 * (d * d) <= (2 * h - 3 * d) * (2 * h - 3 * d)) <-> (5 * (D * D) <= (2 * H - 3 * D) * (2 * H - 3 * D))%R).
  { unfold H, D. rewrite <- !mult_IZR, <- !minus_IZR, <- !mult_IZR. split; [apply IZR_le|apply le_IZR]. }
  rewrite E1, E2. set (y := (2 * H - 3 * D)%R) in *. clearbody y D q. clear E E1 E2.
  assert (Q : (0 <= q * D)%R) by (apply Rmult_le_pos; auto).
  assert (Q2 : (q * D * (q * D) = 5 * (D * D))%R) by (rewrite <- S; ring).
  rewrite <- Q2. split.
  - intros [Y1 Y2]. apply Rsqr_incr_0; auto.
  - intros Y. split; [lra|]. apply Rmult_le_compat; auto.
Qed.

Lemma small_real x h : 0 <= h -> golden_le (x * x) h = true <-> (IZR (Z.abs x) <= sqrt (IZR h) / phi)%R.
Proof.
  intros Hh. assert (P0 : (0 < phi)%R) by (unfold phi; pose proof (sqrt_pos 5); lra).
  rewrite golden_real by apply Z.square_nonneg.
  assert (Hh' : (0 <= IZR h)%R) by (apply IZR_le; auto).
  assert (A0 : (0 <= IZR (Z.abs x))%R) by (apply IZR_le; lia).
  assert (E : (phi * phi * IZR (x * x) = Rsqr (IZR (Z.abs x) * phi))%R).
  { rewrite <- Z.abs_square, mult_IZR. unfold Rsqr. ring. }
  rewrite E. rewrite <- (Rsqr_sqrt (IZR h)) at 1 by auto. split.
  - intros H. apply Rmult_le_reg_r with phi; auto. unfold Rdiv. rewrite Rmult_assoc, Rinv_l, Rmult_1_r by lra.
    apply Rsqr_incr_0; auto. apply Rmult_le_pos; lra. apply sqrt_pos.
  - intros H. apply Rsqr_incr_1; [|apply Rmult_le_pos; lra|apply sqrt_pos].
    apply Rmult_le_compat_r with (r := phi) in H; [|lra]. unfold Rdiv in H. rewrite Rmult_assoc, Rinv_l, Rmult_1_r in H by lra. auto.
Qed.

(** Dixon's theorem for the code *)
Theorem C22_rational_reconstruction : forall s h n d, 1 < h -> Z.abs s < h -> 0 < d -> (h | s * d - n) ->
  (IZR (Z.abs n) <= sqrt (IZR h) / phi)%R -> (IZR d <= sqrt (IZR h) / phi)%R ->
  rational_reconstruction s h = Ret (ZQ n / ZQ d)%Qc.
Proof.
  intros s h n d Hh Hs Hd C Bn Bd. destruct (rational_reconstruction_ok s h Hh Hs) as (nu & de & Hde & -> & Q).
  f_equal. apply ZQ_div_eq; auto; [lia|]. apply Q; auto.
  - apply small_real; auto. lia.
  - apply small_real; [lia|]. rewrite Z.abs_eq by lia. auto.
Qed.
Print Assumptions C22_rational_reconstruction.

(** the same with the bound as an integer inequality, without real numbers:
    phi^2 x^2 <= h iff 3 x^2 <= 2 h and 5 x^4 <= (2 h - 3 x^2)^2 *)
Theorem C22_rational_reconstruction_int : forall s h n d, 1 < h -> Z.abs s < h -> 0 < d -> (h | s * d - n) ->
  3 * n ^ 2 <= 2 * h -> 5 * n ^ 4 <= (2 * h - 3 * n ^ 2) ^ 2 -> 3 * d ^ 2 <= 2 * h -> 5 * d ^ 4 <= (2 * h - 3 * d ^ 2) ^ 2 ->
  rational_reconstruction s h = Ret (ZQ n / ZQ d)%Qc.
Proof.
  intros s h n d Hh Hs Hd C N1 N2 D1 D2. destruct (rational_reconstruction_ok s h Hh Hs) as (nu & de & Hde & -> & Q).
  f_equal. apply ZQ_div_eq; auto; [lia|]. apply Q; auto; apply golden_le_spec; split; try lia.
Qed.
Print Assumptions C22_rational_reconstruction_int.

(** it terminates without panic for all residues *)
Theorem C22_terminates : forall s h, 1 < h -> Z.abs s < h -> exists q, rational_reconstruction s h = Ret q.
Proof. intros s h Hh Hs. destruct (rational_reconstruction_ok s h Hh Hs) as (nu & de & _ & E & _). eauto. Qed.

(** a case: 6 / 7 modulo 1009, also from the negative residue *)
Example C22_case :
  (1009 | 145 * 7 - 6) /\ 3 * 7 ^ 2 <= 2 * 1009 /\ 5 * 7 ^ 4 <= (2 * 1009 - 3 * 7 ^ 2) ^ 2 /\
  rational_reconstruction 145 1009 = Ret (ZQ 6 / ZQ 7)%Qc /\ rational_reconstruction (145 - 1009) 1009 = Ret (ZQ 6 / ZQ 7)%Qc.
Proof. splits; try lia; try (exists 1; lia); qc_compute. Qed.

(** ** C23 *)
Definition is_solution (n m : nat) (a b : zmat) (x : list (list Qc)) : Prop :=
  rect n m x /\ forall i j, (i < n)%nat -> (j < m)%nat ->
    sumf n (fun l => (ZQ (at_ a i l) * nth j (nth l x []) 0)%Qc) = ZQ (at_ b i j).

Lemma entry_bound r c g : exists A, 0 <= A /\ forall i j, (i < r)%nat -> (j < c)%nat -> Z.abs (g i j) <= A.
Proof.
  assert (V : forall c (f : nat -> Z), exists A, 0 <= A /\ forall j, (j < c)%nat -> Z.abs (f j) <= A).
  { induction c0 as [|c0 IH]; intros f; [exists 0; split; [lia|intros; lia]|]. destruct (IH f) as (A & H0 & HA).
    exists (Z.max A (Z.abs (f c0))). split; [lia|]. intros j Hj. destruct (Nat.eq_dec j c0) as [->|]; [lia|]. specialize (HA j ltac:(lia)). lia. }
  induction r as [|r IH]; [exists 0; split; [lia|intros; lia]|]. destruct IH as (A & H0 & HA). destruct (V c (g r)) as (A' & H0' & HA').
  exists (Z.max A A'). split; [lia|]. intros i j Hi Hj. destruct (Nat.eq_dec i r) as [->|]; [specialize (HA' j Hj); lia|].
  specialize (HA i j ltac:(lia) Hj). lia.
Qed.

Lemma solve_general chk n m a b A B : machine chk (Z.max (the_prime * the_prime) (the_prime * Z.max B (Z.of_nat n * A))) ->
  (0 < n)%nat -> (0 < m)%nat -> rect n n a -> rect n m b ->
  (forall i j, (i < n)%nat -> (j < n)%nat -> ~ negative_multiple the_prime (at_ a i j)) ->
  (forall i j, (i < n)%nat -> (j < n)%nat -> Z.abs (at_ a i j) <= A) ->
  (forall i j, (i < n)%nat -> (j < m)%nat -> Z.abs (at_ b i j) <= B) ->
  (~ (the_prime | det n a) -> ms_solve chk a b = Ret (Some (tab n m (cramer_solution n (at_ a) (at_ b))))) /\
  ((the_prime | det n a) -> ms_solve chk a b = Ret None).
Proof.
  intros M Hn Hm Ra Rb Hneg Ba Bb.
  assert (Hb : 0 <= Z.max (the_prime * the_prime) (the_prime * Z.max B (Z.of_nat n * A))) by (unfold the_prime; lia).
  destruct (machine_ok chk _ Hb M) as (ok & O1 & O2 & O3).
  assert (B0 : 0 <= B). { specialize (Bb O O Hn Hm). lia. }
  assert (Ea : a = tab n n (at_ a)) by exact (rect_eq_tab n n a 0 Ra). assert (Eb : b = tab n m (at_ b)) by exact (rect_eq_tab n m b 0 Rb).
  assert (Em : ms_solve chk a b = ms_solve chk (tab n n (at_ a)) (tab n m (at_ b))) by (rewrite <- Ea, <- Eb; auto). rewrite Em.
  apply (ms_solve_ok chk ok O1 O2 ltac:(apply O3; unfold the_prime; lia) n m (at_ a) (at_ b) A B Hn Hm Hneg Ba Bb).
  apply O3. unfold the_prime. lia.
Qed.

Theorem C23_solve : forall n m a b, (0 < n)%nat -> (0 < m)%nat -> rect n n a -> rect n m b ->
  (forall i j, (i < n)%nat -> (j < n)%nat -> ~ negative_multiple 9999991 (at_ a i j)) ->
  (~ (9999991 | det n a) -> exists x, ms_solve (fun z => Ret z) a b = Ret (Some x) /\ is_solution n m a b x /\
     forall y, is_solution n m a b y -> y = x) /\
  ((9999991 | det n a) -> ms_solve (fun z => Ret z) a b = Ret None).
Proof.
  intros n m a b Hn Hm Ra Rb Hneg.
  destruct (entry_bound n n (at_ a)) as (A & _ & HA). destruct (entry_bound n m (at_ b)) as (B & _ & HB).
  destruct (solve_general (fun z => Ret z) n m a b A B (or_introl eq_refl) Hn Hm Ra Rb Hneg HA HB) as [H1 H2].
  split; [|exact H2]. intros ND. exists (tab n m (cramer_solution n (at_ a) (at_ b))). split; [apply H1; exact ND|].
  assert (Hd : ModMC.zdet n (at_ a) <> 0) by (intros Z0; apply ND; unfold det; rewrite Z0; apply Z.divide_0_r).
  assert (Sol : is_solution n m a b (tab n m (cramer_solution n (at_ a) (at_ b)))).
  2:{ split; auto. intros y Sy. destruct Sol as [S1 S2], Sy as [Y1 Y2].
      rewrite (rect_eq_tab n m y 0%Qc Y1). rewrite (rect_eq_tab n m _ 0%Qc S1). apply tab_ext. intros l j Hl Hj.
      apply (ModMC.unique_solution (n := n) (g := at_ a) (y := fun l => nth j (nth l y []) 0%Qc) (z := fun l => nth j (nth l (tab n m (cramer_solution n (at_ a) (at_ b))) []) 0%Qc)); auto.
      intros i Hi. rewrite Y2, S2 by auto. auto. }
  split; [apply rect_tab|]. intros i j Hi Hj.
  rewrite <- (cramer_solves n (at_ a) (at_ b) i j Hi Hd). apply sumf_ext. intros l Hl.
  rewrite (nth_error_nth _ _ _ (tab_row n m _ l Hl)). rewrite (nth_error_nth _ _ _ (nth_error_map_seq _ m j Hj)). reflexivity.
Qed.
Print Assumptions C23_solve.

(** the number of lifting steps is the least integer not below 2 (log delta + log phi) / log p *)
Theorem C23_number_of_steps : forall d2 p k, 1 <= d2 -> 1 < p ->
  golden_le d2 (p ^ Z.of_nat k) = true <-> (2 * (ln (sqrt (IZR d2)) + ln phi) / ln (IZR p) <= INR k)%R.
Proof.
  intros d2 p k Hd Hp. rewrite golden_real by lia.
  assert (P0 : (0 < phi)%R) by (unfold phi; pose proof (sqrt_pos 5); lra).
  assert (D0 : (0 < IZR d2)%R) by (apply IZR_lt; lia). assert (p0 : (1 < IZR p)%R) by (apply IZR_lt; lia).
  assert (L0 : (0 < ln (IZR p))%R) by (rewrite <- ln_1; apply ln_increasing; lra).
  assert (S0 : (0 < sqrt (IZR d2))%R) by (apply sqrt_lt_R0; auto).
  assert (E1 : IZR (p ^ Z.of_nat k) = (IZR p ^ k)%R) by (rewrite pow_IZR; auto). rewrite E1.
  assert (E2 : ln (IZR p ^ k) = (INR k * ln (IZR p))%R).
  { clear - p0. induction k as [|k IH]; [simpl; rewrite ln_1; lra|]. rewrite S_INR. cbn [pow]. rewrite ln_mult; [rewrite IH; ring|lra|apply pow_lt; lra]. }
  assert (E3 : ln (phi * phi * IZR d2) = (2 * (ln (sqrt (IZR d2)) + ln phi))%R).
  { rewrite <- (sqrt_sqrt (IZR d2)) at 1 by lra. rewrite !ln_mult; auto; try lra. apply Rmult_lt_0_compat; auto. apply Rmult_lt_0_compat; auto. }
  assert (X0 : (0 < phi * phi * IZR d2)%R) by (apply Rmult_lt_0_compat; auto; apply Rmult_lt_0_compat; auto).
  assert (Y0 : (0 < IZR p ^ k)%R) by (apply pow_lt; lra).
  transitivity (ln (phi * phi * IZR d2) <= ln (IZR p ^ k))%R.
  - split; intros H.
    + destruct H as [H|H]; [left; apply ln_increasing; auto|right; congruence].
    + destruct H as [H|H]; [left; apply ln_lt_inv; auto|right; apply ln_inv; auto].
  - rewrite E2, E3. split; intros H.
    + apply Rmult_le_reg_r with (ln (IZR p)); auto. unfold Rdiv. rewrite Rmult_assoc, Rinv_l, Rmult_1_r by lra. auto.
    + apply Rmult_le_compat_r with (r := ln (IZR p)) in H; [|lra]. unfold Rdiv in H. rewrite Rmult_assoc, Rinv_l, Rmult_1_r in H by lra. auto.
Qed.
Print Assumptions C23_number_of_steps.

Example C23_case : ms_solve (fun z => Ret z) [[4; -7]; [2; 4]] [[-2; 1]; [3; 0]] =
  Ret (Some [[ZQ 13 / ZQ 30; ZQ 2 / ZQ 15]; [ZQ 8 / ZQ 15; - (ZQ 1 / ZQ 15)]])%Qc.
Proof. qc_compute. Qed.
(** determinant 9999991: a regular system that is reported unsolvable *)
Example C23_case_none : det 1 [[9999991]] = 9999991 -> ms_solve (fun z => Ret z) [[9999991]] [[1]] = Ret None.
Proof. intros _. vm_compute. reflexivity. Qed.

(** ** C24 *)
Theorem C24_no_overflow : forall n m a b A B, (0 < n)%nat -> (0 < m)%nat -> rect n n a -> rect n m b ->
  (forall i j, (i < n)%nat -> (j < n)%nat -> ~ negative_multiple 9999991 (at_ a i j)) ->
  (forall i j, (i < n)%nat -> (j < n)%nat -> Z.abs (at_ a i j) <= A) ->
  (forall i j, (i < n)%nat -> (j < m)%nat -> Z.abs (at_ b i j) <= B) ->
  Z.of_nat n * A <= 9 * 10 ^ 11 -> B <= 9 * 10 ^ 11 ->
  ms_solve chk64 a b = ms_solve (fun z => Ret z) a b.
Proof.
  intros n m a b A B Hn Hm Ra Rb Hneg Ba Bb HA HB.
  assert (M : machine chk64 (Z.max (the_prime * the_prime) (the_prime * Z.max B (Z.of_nat n * A)))).
  { right. split; auto. unfold the_prime. lia. }
  destruct (solve_general chk64 n m a b A B M Hn Hm Ra Rb Hneg Ba Bb) as [H1 H2].
  destruct (solve_general (fun z => Ret z) n m a b A B (or_introl eq_refl) Hn Hm Ra Rb Hneg Ba Bb) as [H3 H4].
  destruct (Zdivide_dec the_prime (det n a)) as [D|D].
  - rewrite H2, H4 by auto. auto.
  - rewrite H1, H3 by auto. auto.
Qed.
Print Assumptions C24_no_overflow.

Example C24_case : ms_solve chk64 [[100000000000; 3]; [1; 1]] [[900000000000]; [2]] =
  ms_solve (fun z => Ret z) [[100000000000; 3]; [1; 1]] [[900000000000]; [2]].
Proof.
  apply (C24_no_overflow 2 1 _ _ 100000000000 900000000000); try lia; try (split; [reflexivity|repeat constructor]).
  - intros i j Hi Hj [H _]. destruct i as [|[|]], j as [|[|]]; unfold at_ in H; simpl in H; lia.
  - intros i j Hi Hj. destruct i as [|[|]], j as [|[|]]; unfold at_; simpl; lia.
  - intros i j Hi Hj. destruct i as [|[|]], j as [|]; unfold at_; simpl; lia.
Qed.
(** outside the range the machine integers do overflow *)
Example C24_overflows : ms_solve chk64 [[3]] [[2 ^ 62]] = Panic.
Proof. vm_compute. reflexivity. Qed.
