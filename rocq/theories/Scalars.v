(** Models of gcdx and of the implementations of the trait [Scalar] for i32/i64
    (as unbounded integers) and BigRational, src/arithmetic/linear_algebra.rs. *)
From Coq Require Import List ZArith Lia Bool PeanoNat Ring Setoid Znumtheory.
From Coq Require Import QArith Qcanon.
From Verif Require Import Base Vec Elim.
Import ListNotations.
Close Scope Q_scope.
Open Scope nat_scope.

(** ** gcdx *)
Open Scope Z_scope.

(** linear_algebra.rs 15-24: loop state (a, a_next, r, r_next, s, s_next) *)
Definition gstate := (Z * Z * Z * Z * Z * Z)%type.

(** linear_algebra.rs 19-24: one iteration *)
Definition gcdx_step (st : gstate) : outcome (gstate + (Z * Z * Z * Z * Z)) :=
  let '(a, an, r, rn, s, sn) := st in
  if Z.eqb an 0 then Ret (inr (a, r, s, rn, sn))
  else
    let q := Z.quot a an in
    Ret (inl (an, a - q * an, rn, r - q * rn, sn, s - q * sn)).

Definition gcdx_init (a b : Z) : gstate := (a, b, 1, 0, 0, 1).

(** linear_algebra.rs 10-27: gcdx.  The number of iterations is bounded by
    |b|; the fuel is its bit length. *)
Definition gcdx (a b : Z) : outcome (Z * Z * Z * Z * Z) :=
  loop gcdx_step (Z.to_nat (Z.log2 (Z.abs b)) + 1) (gcdx_init a b).

(** all values computed in one iteration, in the order of the code *)
Definition gcdx_intermediates (st : gstate) : list Z :=
  let '(a, an, r, rn, s, sn) := st in
  let q := Z.quot a an in
  [q; q * an; a - q * an; q * rn; r - q * rn; q * sn; s - q * sn].

Definition ginv (a b : Z) (st : gstate) : Prop :=
  let '(x, xn, r, rn, s, sn) := st in
  x = a * r + b * s /\ xn = a * rn + b * sn /\
  Z.abs (r * sn - s * rn) = 1 /\ Z.gcd x xn = Z.gcd a b.

Lemma quot_decr a b : b <> 0 -> Z.abs (a - Z.quot a b * b) < Z.abs b.
Proof.
  intros Hb. pose proof (Z.quot_rem' a b) as E.
  replace (a - Z.quot a b * b) with (Z.rem a b) by lia.
  pose proof (Z.rem_bound_abs a b Hb). lia.
Qed.

Lemma gcd_step a b q : Z.gcd b (a - q * b) = Z.gcd a b.
Proof.
  replace (a - q * b) with (a + (- q) * b) by ring.
  rewrite Z.gcd_add_mult_diag_r. apply Z.gcd_comm.
Qed.

Lemma gcdx_correct a b :
  exists g r s t u, gcdx a b = Ret (g, r, s, t, u) /\
    g = a * r + b * s /\ 0 = a * t + b * u /\ Z.abs g = Z.gcd a b /\ Z.abs (r * u - s * t) = 1.
Proof.
  destruct (loop_rule gcdx_step (ginv a b) (fun st => let '(_, xn, _, _, _, _) := st in Z.abs xn)
    (fun res => let '(g, r, s, t, u) := res in
       g = a * r + b * s /\ 0 = a * t + b * u /\ Z.abs g = Z.gcd a b /\ Z.abs (r * u - s * t) = 1)
    (Z.to_nat (Z.log2 (Z.abs b)) + 1) (gcdx_init a b)) as ([[[[g r] s] t] u] & E & P).
  - intros [[[[[x xn] r] rn] s] sn] (I1 & I2 & I3 & I4). unfold gcdx_step.
    destruct (Z.eqb_spec xn 0) as [Hx|Hx].
    + splits; auto; try lia. rewrite <- I4, Hx. rewrite Z.gcd_0_r. reflexivity.
    + set (q := Z.quot x xn). splits; try lia.
      * pose proof (quot_decr x xn Hx). unfold ginv. splits; auto.
        -- rewrite I1. rewrite I2 at 1. ring.
        -- replace (rn * (s - q * sn) - sn * (r - q * rn)) with (- (r * sn - s * rn)) by ring.
           rewrite Z.abs_opp. auto.
        -- rewrite gcd_step; auto.
      * apply quot_decr; auto.
  - unfold gcdx_init, ginv. splits; auto; try ring.
  - simpl. destruct (Z.eq_dec b 0) as [->|Hb].
    + simpl. lia.
    + rewrite Nat2Z.inj_add, Z2Nat.id by apply Z.log2_nonneg. simpl Z.of_nat.
      pose proof (Z.log2_spec (Z.abs b)). lia.
  - exists g, r, s, t, u. auto.
Qed.

(** sizes: sign-alternating cofactors *)
Definition gbnd (a b : Z) (st : gstate) : Prop :=
  let '(x, xn, r, rn, s, sn) := st in
  x <> 0 \/ st = gcdx_init a b.

Definition gsize (a b : Z) (st : gstate) : Prop :=
  let '(x, xn, r, rn, s, sn) := st in
  (Z.abs x * Z.abs rn + Z.abs xn * Z.abs r = Z.abs b) /\
  (Z.abs x * Z.abs sn + Z.abs xn * Z.abs s = Z.abs a) /\
  (x * xn * (r * rn) <= 0) /\ (x * xn * (s * sn) <= 0) /\
  (Z.abs x <= Z.max (Z.abs a) (Z.abs b)) /\ (Z.abs xn <= Z.max (Z.abs a) (Z.abs b)).

Lemma abs_sub_opp r w : r * w <= 0 -> Z.abs (r - w) = Z.abs r + Z.abs w.
Proof. intros Hs. destruct (Z.abs_spec r) as [[? ->]|[? ->]], (Z.abs_spec w) as [[? ->]|[? ->]],
   (Z.abs_spec (r - w)) as [[? ->]|[? ->]]; nia. Qed.

Lemma quot_sign x xn : xn <> 0 -> 0 <= x * xn -> 0 <= Z.quot x xn.
Proof.
  intros Hn Hs. destruct (Z.eq_dec x 0) as [->|Hx]; [rewrite Z.quot_0_l; lia|].
  assert (0 < x * xn) by nia.
  destruct (Z.lt_trichotomy xn 0) as [C|[C|C]]; [|lia|].
  - rewrite <- Z.quot_opp_opp by lia. apply Z.quot_pos; nia.
  - apply Z.quot_pos; nia.
Qed.

Lemma quot_sign_neg x xn : xn <> 0 -> x * xn <= 0 -> Z.quot x xn <= 0.
Proof.
  intros Hn Hs. pose proof (quot_sign (- x) xn Hn). rewrite Z.quot_opp_l in H by auto. lia.
Qed.

Lemma abs_quot_rem x xn : xn <> 0 ->
  Z.abs x = Z.abs (Z.quot x xn) * Z.abs xn + Z.abs (x - Z.quot x xn * xn).
Proof.
  intros Hn. pose proof (Z.quot_rem' x xn) as E.
  replace (x - Z.quot x xn * xn) with (Z.rem x xn) by lia.
  rewrite <- Z.rem_abs, <- Z.quot_abs by auto.
  pose proof (Z.quot_rem' (Z.abs x) (Z.abs xn)). lia.
Qed.

Lemma rem_sign x xn : xn <> 0 -> 0 <= x * (x - Z.quot x xn * xn).
Proof.
  intros Hn. pose proof (Z.quot_rem' x xn) as E.
  replace (x - Z.quot x xn * xn) with (Z.rem x xn) by lia.
  pose proof (Z.rem_sign_mul x xn Hn). lia.
Qed.

Lemma sgn_aux1 P q c d :
  (0 <= P -> 0 <= q) -> (P <= 0 -> q <= 0) -> (P = 0 -> q = 0) -> P * (c * d) <= 0 -> c * (q * d) <= 0.
Proof.
  intros Q1 Q2 Q0 H. replace (c * (q * d)) with (q * (c * d)) by ring. set (w := c * d) in *. clearbody w.
  destruct (Z.lt_trichotomy P 0) as [C|[C|C]].
  - assert (q <= 0) by lia. assert (0 <= w) by nia. nia.
  - rewrite (Q0 C). lia.
  - assert (0 <= q) by lia. assert (w <= 0) by nia. nia.
Qed.

Lemma sgn_aux2 P q c d :
  (0 <= P -> 0 <= q) -> (P <= 0 -> q <= 0) -> P * (c * d) <= 0 -> P * (d * (c - q * d)) <= 0.
Proof.
  intros Q1 Q2 H.
  replace (P * (d * (c - q * d))) with (P * (c * d) - (P * q) * (d * d)) by ring.
  assert (0 <= P * q) by (destruct (Z.le_gt_cases 0 P); [assert (0 <= q) by lia|assert (q <= 0) by lia]; nia).
  assert (0 <= d * d) by nia.
  assert (0 <= P * q * (d * d)) by nia. lia.
Qed.

Lemma sgn_aux3 x xn y w : x <> 0 -> 0 <= x * y -> x * xn * w <= 0 -> xn * y * w <= 0.
Proof.
  intros Hx H1 H2.
  assert (H3 : (x * x) * (xn * y * w) <= 0).
  { replace ((x * x) * (xn * y * w)) with ((x * y) * (x * xn * w)) by ring.
    set (A := x * y) in *. set (B := x * xn * w) in *. clearbody A B. nia. }
  set (C := xn * y * w) in *. clearbody C. assert (0 < x * x) by nia. nia.
Qed.

Lemma gsize_step a b x xn r rn s sn :
  gsize a b (x, xn, r, rn, s, sn) -> xn <> 0 ->
  let q := Z.quot x xn in
  gsize a b (xn, x - q * xn, rn, r - q * rn, sn, s - q * sn) /\
  Z.abs (r - q * rn) = Z.abs r + Z.abs q * Z.abs rn /\
  Z.abs (s - q * sn) = Z.abs s + Z.abs q * Z.abs sn.
Proof.
  intros (H1 & H2 & H3 & H4 & H5 & H6) Hn q.
  pose proof (abs_quot_rem x xn Hn) as E. fold q in E.
  pose proof (quot_decr x xn Hn) as D. fold q in D.
  pose proof (rem_sign x xn Hn) as Sg. fold q in Sg.
  pose proof (quot_sign x xn Hn) as Q1. fold q in Q1.
  pose proof (quot_sign_neg x xn Hn) as Q2. fold q in Q2.
  set (y := x - q * xn) in *.
  assert (Hq0 : x * xn = 0 -> q = 0).
  { intros Z0. apply Z.mul_eq_0 in Z0 as [Z0|Z0]; [|congruence]. unfold q. rewrite Z0. apply Z.quot_0_l; auto. }
  assert (G : forall c d, x * xn * (c * d) <= 0 -> c * (q * d) <= 0).
  { intros c d Hcd. eapply sgn_aux1; eauto. }
  assert (Er : Z.abs (r - q * rn) = Z.abs r + Z.abs q * Z.abs rn).
  { rewrite abs_sub_opp by (apply G; auto). rewrite Z.abs_mul. reflexivity. }
  assert (Es : Z.abs (s - q * sn) = Z.abs s + Z.abs q * Z.abs sn).
  { rewrite abs_sub_opp by (apply G; auto). rewrite Z.abs_mul. reflexivity. }
  assert (K : forall c d, x * xn * (c * d) <= 0 -> xn * y * (d * (c - q * d)) <= 0).
  { intros c d Hcd. destruct (Z.eq_dec x 0) as [Hx|Hx].
    - assert (y = 0) as ->; [|lia].
      unfold y. assert (q = 0) as -> by (apply Hq0; rewrite Hx; ring). lia.
    - apply (sgn_aux3 x); auto. apply sgn_aux2; auto. }
  splits; auto; unfold gsize; splits; auto.
  - rewrite Er. rewrite <- H1, E. ring.
  - rewrite Es. rewrite <- H2, E. ring.
  - clearbody y. clear -D H6. lia.
Qed.

Lemma mul_le_aux k m z t : 1 <= k -> 0 <= m -> 0 <= z -> k * m + z = t -> m <= t.
Proof. intros. nia. Qed.

Lemma gsize_reach a b k st :
  iter gcdx_step k (gcdx_init a b) = Ret (inl st) -> gsize a b st.
Proof.
  assert (G : forall k s, gsize a b s -> iter gcdx_step k s = Ret (inl st) -> gsize a b st).
  { clear k. induction k as [|k IH]; intros s Hs; simpl.
    - intros [= <-]. auto.
    - destruct s as [[[[[x xn] r] rn] s] sn]. unfold gcdx_step at 1.
      destruct (Z.eqb_spec xn 0) as [|Hx]; [discriminate|].
      intros Hi. eapply IH; [|exact Hi]. apply gsize_step; auto. }
  apply G. unfold gsize, gcdx_init. splits; simpl; try lia.
Qed.

(** every value computed in the loop is bounded by max(|a|,|b|) *)
Lemma gcdx_bounds a b k st :
  iter gcdx_step k (gcdx_init a b) = Ret (inl st) ->
  (let '(_, xn, _, _, _, _) := st in xn <> 0) ->
  Forall (fun v => Z.abs v <= Z.max (Z.abs a) (Z.abs b)) (gcdx_intermediates st).
Proof.
  intros Hk Hx. pose proof (gsize_reach a b k st Hk) as G.
  destruct st as [[[[[x xn] r] rn] s] sn].
  destruct (gsize_step a b x xn r rn s sn G Hx) as (G' & Er & Es).
  set (q := Z.quot x xn) in *.
  destruct G as (H1 & H2 & H3 & H4 & H5 & H6).
  destruct G' as (G1 & G2 & _ & _ & _ & G6).
  pose proof (abs_quot_rem x xn Hx) as E. fold q in E.
  assert (Hxn : 1 <= Z.abs xn) by (clear -Hx; lia).
  assert (Br : Z.abs (r - q * rn) <= Z.abs b).
  { eapply mul_le_aux; [exact Hxn|apply Z.abs_nonneg| |exact G1]. apply Z.mul_nonneg_nonneg; apply Z.abs_nonneg. }
  assert (Bs : Z.abs (s - q * sn) <= Z.abs a).
  { eapply mul_le_aux; [exact Hxn|apply Z.abs_nonneg| |exact G2]. apply Z.mul_nonneg_nonneg; apply Z.abs_nonneg. }
  assert (Bq : Z.abs q <= Z.abs x).
  { eapply mul_le_aux; [exact Hxn|apply Z.abs_nonneg| |rewrite Z.mul_comm; symmetry; exact E]. apply Z.abs_nonneg. }
  assert (Bqx : Z.abs q * Z.abs xn <= Z.abs x) by (rewrite E; pose proof (Z.abs_nonneg (x - q * xn)) as X; clear -X; lia).
  assert (Bqr : Z.abs q * Z.abs rn <= Z.abs b) by (rewrite Er in Br; pose proof (Z.abs_nonneg r) as X; clear -X Br; lia).
  assert (Bqs : Z.abs q * Z.abs sn <= Z.abs a) by (rewrite Es in Bs; pose proof (Z.abs_nonneg s) as X; clear -X Bs; lia).
  clear G1 G2 H1 H2 H3 H4 E Er Es.
  unfold gcdx_intermediates. fold q.
  repeat constructor.
  - eapply Z.le_trans; eauto.
  - rewrite Z.abs_mul. eapply Z.le_trans; eauto.
  - exact G6.
  - rewrite Z.abs_mul. eapply Z.le_trans; [exact Bqr|apply Z.le_max_r].
  - eapply Z.le_trans; [exact Br|apply Z.le_max_r].
  - rewrite Z.abs_mul. eapply Z.le_trans; [exact Bqs|apply Z.le_max_l].
  - eapply Z.le_trans; [exact Bs|apply Z.le_max_l].
Qed.

Close Scope Z_scope.

(** ** updates of a row from a column on *)
Section ZipFrom.
  Context {R : Type} {RD : Dom R}.
  Fixpoint zip_from (k : nat) (f : R -> R -> R) (v b : list R) : list R :=
    match v, b with
    | x :: v', y :: b' => (match k with O => f x y | S _ => x end) :: zip_from (pred k) f v' b'
    | _, _ => v
    end.

  Lemma zip_from_length k f v b : length (zip_from k f v b) = length v.
  Proof. revert k b; induction v as [|x v IH]; intros k [|y b]; simpl; auto. Qed.

  Lemma vget_zip_from k f v b i :
    length v = length b -> i < length v ->
    vget (zip_from k f v b) i = if Nat.ltb i k then vget v i else f (vget v i) (vget b i).
  Proof.
    unfold vget. revert k b i; induction v as [|x v IH]; intros k [|y b] i E Hi; simpl in *; try lia.
    destruct i as [|i]; simpl.
    - destruct k; reflexivity.
    - rewrite IH by lia. destruct k; simpl; auto.
  Qed.

  Fixpoint map_from (k : nat) (f : R -> R) (v : list R) : list R :=
    match v with
    | x :: v' => (match k with O => f x | S _ => x end) :: map_from (pred k) f v'
    | [] => []
    end.

  Lemma map_from_length k f v : length (map_from k f v) = length v.
  Proof. revert k; induction v as [|x v IH]; intros k; simpl; auto. Qed.

  Lemma vget_map_from k f v i :
    i < length v ->
    vget (map_from k f v) i = if Nat.ltb i k then vget v i else f (vget v i).
  Proof.
    unfold vget. revert k i; induction v as [|x v IH]; intros k i Hi; simpl in *; try lia.
    destruct i as [|i]; simpl.
    - destruct k; reflexivity.
    - rewrite IH by lia. destruct k; simpl; auto.
  Qed.

  (** [v[k] = x] *)
  Fixpoint upd (k : nat) (x : R) (v : list R) : list R :=
    match v, k with
    | [], _ => []
    | _ :: v', O => x :: v'
    | y :: v', S k' => y :: upd k' x v'
    end.

  Lemma upd_length k x v : length (upd k x v) = length v.
  Proof. revert k; induction v; intros [|k]; simpl; auto. Qed.

  Lemma vget_upd k x v i :
    k < length v -> vget (upd k x v) i = if Nat.eqb i k then x else vget v i.
  Proof.
    unfold vget. revert k i; induction v as [|y v IH]; intros [|k] [|i] Hk; simpl in *; try lia; auto.
    apply IH. lia.
  Qed.
End ZipFrom.

(** all indices [col..v.len()] used on [b] are in bounds *)
Definition covers {A B} (v : list A) (b : list B) : outcome unit := assert (Nat.leb (length v) (length b)).

(** ** i32 / i64 *)
Open Scope Z_scope.

(** linear_algebra.rs 144-155: clear_column_primitive_int *)
Definition clear_column_Z (col : nat) (v b : list Z) : outcome (list Z * list Z) :=
  do bc <- unwrap (nth_error b col);
  do vc <- unwrap (nth_error v col);
  do (_, r, s, t, u) <- gcdx bc vc;
  let det := r * u - s * t in
  do _ <- covers v b;
  Ret (zip_from col (fun vk bk => bk * t + vk * u) v b,
       zip_from col (fun bk vk => det * (bk * r + vk * s)) b v).

(** linear_algebra.rs 157-164: normalize_column_primitive_int *)
Definition normalize_column_Z (col : nat) (v : list Z) : outcome (list Z) :=
  do vc <- unwrap (nth_error v col);
  if Z.ltb vc 0 then Ret (map_from col Z.opp v) else Ret v.

(** linear_algebra.rs 166-178: reduce_column_primitive_int *)
Definition reduce_column_Z (col : nat) (v b : list Z) : outcome (list Z) :=
  do vc <- unwrap (nth_error v col);
  do bc <- unwrap (nth_error b col);
  do _ <- assert (negb (Z.eqb bc 0));
  let f := Z.quot vc bc - (if Z.ltb vc 0 then 1 else 0) in
  if Z.eqb f 0 then Ret v
  else do _ <- covers v b; Ret (zip_from col (fun vk bk => vk - bk * f) v b).

(** linear_algebra.rs 188-191: [t -= a[i] * x[i][col]] for all previous rows *)
Fixpoint residual (a : list Z) (x : list (list Z)) (col : nat) (t : Z) : outcome Z :=
  match x with
  | [] => Ret t
  | xi :: x' =>
      match a with
      | [] => Panic
      | ai :: a' => do xc <- unwrap (nth_error xi col); residual a' x' col (t - ai * xc)
      end
  end.

(** linear_algebra.rs 180-199: solve_row_primitive_int.  The loop over the
    columns of [b] as a recursion. *)
Fixpoint solve_row_Z_from (a : list Z) (x : list (list Z)) (col : nat) (b : list Z)
  : outcome (option (list Z)) :=
  match b with
  | [] => Ret (Some [])
  | bc :: b' =>
      do t <- residual a x col bc;
      do ak <- unwrap (nth_error a (length x));
      do _ <- assert (negb (Z.eqb ak 0));
      if Z.eqb (Z.rem t ak) 0 then
        do rest <- solve_row_Z_from a x (S col) b';
        Ret (option_map (cons (Z.quot t ak)) rest)
      else Ret None
  end.

Definition solve_row_Z (a : list Z) (x : list (list Z)) (b : list Z) : outcome (option (list Z)) :=
  solve_row_Z_from a x 0 b.

(** linear_algebra.rs 103-141: impl Scalar for i32, i64 *)
#[global] Instance Z_scalar : Scalar Z := {|
  s_clear := clear_column_Z;
  s_normalize := normalize_column_Z;
  s_reduce := reduce_column_Z;
  s_solve_row := solve_row_Z |}.

Lemma nth_error_vget {R} {RD : Dom R} (v : list R) i :
  (i < length v)%nat -> nth_error v i = Some (vget v i).
Proof. intros Hi. unfold vget. apply nth_error_nth'. auto. Qed.

Lemma covers_ok {A B} (v : list A) (b : list B) : length v = length b -> covers v b = Ret tt.
Proof. intros E. unfold covers. rewrite E, Nat.leb_refl. reflexivity. Qed.

#[global] Instance Z_scalar_laws : ScalarLaws Z.
Proof.
  split; simpl.
  - intros col v b Hl Pv Pb. apply pivot_Some in Pv as (Lv & Nv & Zv). apply pivot_Some in Pb as (Lb & Nb & Zb).
    simpl in Nv, Nb, Zv, Zb.
    unfold clear_column_Z. rewrite !nth_error_vget by auto. simpl.
    destruct (gcdx_correct (vget b col) (vget v col)) as (g & r & s & t & u & -> & Hg & H0 & Ha & Hd).
    simpl. rewrite covers_ok by auto. simpl.
    set (d := r * u - s * t) in *.
    assert (Hdd : d * d = 1) by nia.
    exists (zip_from col (fun vk bk => bk * t + vk * u) v b),
           (zip_from col (fun bk vk => d * (bk * r + vk * s)) b v), (d * r), (d * s), t, u.
    splits; auto.
    + transitivity (d * d); [unfold d; ring|auto].
    + apply vec_ext.
      * rewrite zip_from_length, vadd_length; rewrite ?vscale_length; auto.
      * rewrite zip_from_length. intros i Hi.
        rewrite vget_zip_from by auto. rewrite vget_vadd by (rewrite !vscale_length; auto).
        rewrite !vget_vscale. simpl. destruct (Nat.ltb_spec i col) as [Hc|Hc].
        -- rewrite Zv, Zb by auto. ring.
        -- ring.
    + apply vec_ext.
      * rewrite zip_from_length, vadd_length; rewrite ?vscale_length; auto.
      * rewrite zip_from_length. intros i Hi.
        rewrite vget_zip_from by auto. rewrite vget_vadd by (rewrite !vscale_length; auto).
        rewrite !vget_vscale. simpl. destruct (Nat.ltb_spec i col) as [Hc|Hc].
        -- rewrite Zv, Zb by auto. ring.
        -- ring.
    + rewrite vget_zip_from by auto. rewrite Nat.ltb_irrefl. lia.
  - intros col b Pb. apply pivot_Some in Pb as (Lb & Nb & Zb). simpl in Nb, Zb.
    unfold normalize_column_Z. rewrite nth_error_vget by auto. simpl.
    destruct (Z.ltb_spec (vget b col) 0).
    + exists (-1), (-1). split; [|lia]. f_equal. apply vec_ext.
      * rewrite map_from_length, vscale_length; auto.
      * rewrite map_from_length. intros i Hi. rewrite vget_map_from by auto. rewrite vget_vscale.
        cbn [rmul Z_dom]. destruct (Nat.ltb_spec i col); [rewrite Zb by auto; ring|]. ring.
    + exists 1, 1. split; [|lia]. f_equal. symmetry. exact (@vscale_1 Z Z_dom Z_laws b).
  - intros col v b b' Hl Pb Hn Zb0.
    assert (Hb' : exists c, b' = vscale c b /\ (c = 1 \/ c = -1)).
    { pose proof Pb as Pb2. apply pivot_Some in Pb2 as (Lb & Nb & Zb). simpl in Nb, Zb.
      unfold normalize_column_Z in Hn. rewrite nth_error_vget in Hn by auto. simpl in Hn.
      destruct (Z.ltb_spec (vget b col) 0); injection Hn as <-.
      - exists (-1). split; auto. apply vec_ext.
        + rewrite map_from_length, vscale_length; auto.
        + rewrite map_from_length. intros i Hi. rewrite vget_map_from by auto. rewrite vget_vscale.
          cbn [rmul Z_dom]. destruct (Nat.ltb_spec i col); [rewrite Zb by auto; ring|]. ring.
      - exists 1. split; auto. symmetry. exact (@vscale_1 Z Z_dom Z_laws b). }
    destruct Hb' as (c & -> & Hc). apply pivot_Some in Pb as (Lb & Nb & Zb). simpl in Nb, Zb.
    unfold reduce_column_Z. rewrite !nth_error_vget by (rewrite ?vscale_length; lia). simpl.
    rewrite vget_vscale. simpl.
    destruct (Z.eqb_spec (c * vget b col) 0) as [Hz|Hz]; [nia|]. simpl.
    set (f := Z.quot _ _ - _). destruct (Z.eqb_spec f 0) as [Hf|Hf].
    + exists 0. f_equal. change (v = vadd v (vscale (r0 : Z) (vscale c b))). rewrite vscale_0. symmetry. apply vadd_0_r. rewrite vscale_length; auto.
    + rewrite covers_ok by (rewrite vscale_length; auto). simpl. exists (- f). f_equal. apply vec_ext.
      * rewrite zip_from_length, vadd_length; rewrite ?vscale_length; auto.
      * rewrite zip_from_length. intros i Hi.
        rewrite vget_zip_from by (rewrite ?vscale_length; auto). rewrite vget_vadd by (rewrite !vscale_length; auto).
        rewrite !vget_vscale. simpl. destruct (Nat.ltb_spec i col); [rewrite Zb by auto|]; ring.
Qed.
Close Scope Z_scope.

(** ** BigRational *)
Open Scope Qc_scope.

(** linear_algebra.rs 39-44: clear_column; division by zero panics *)
Definition clear_column_Q (col : nat) (v b : list Qc) : outcome (list Qc * list Qc) :=
  do vc <- unwrap (nth_error v col);
  do bc <- unwrap (nth_error b col);
  do _ <- assert (negb (Qc_eqb bc 0));
  let f := vc / bc in
  do _ <- covers v b;
  Ret (zip_from (S col) (fun vk bk => vk - bk * f) (upd col 0 v) b, b).

(** linear_algebra.rs 46-51: normalize_column *)
Definition normalize_column_Q (col : nat) (v : list Qc) : outcome (list Qc) :=
  do vc <- unwrap (nth_error v col);
  do _ <- assert (negb (Qc_eqb vc 0));
  Ret (map_from (S col) (fun x => x / vc) (upd col 1 v)).

(** linear_algebra.rs 53-59: reduce_column *)
Definition reduce_column_Q (col : nat) (v b : list Qc) : outcome (list Qc) :=
  do vc <- unwrap (nth_error v col);
  do _ <- covers v b;
  Ret (zip_from (S col) (fun vk bk => vk - bk * vc) (upd col 0 v) b).

(** linear_algebra.rs 61-65: solve_row *)
Definition solve_row_Q (a : list Qc) (x : list (list Qc)) (b : list Qc) : outcome (option (list Qc)) :=
  Ret (Some b).

(** linear_algebra.rs 38-66: impl Scalar for BigRational *)
#[global] Instance Qc_scalar : Scalar Qc := {|
  s_clear := clear_column_Q;
  s_normalize := normalize_column_Q;
  s_reduce := reduce_column_Q;
  s_solve_row := solve_row_Q |}.

Lemma normalize_Q_eq col b :
  pivot b = Some col -> normalize_column_Q col b = Ret (vscale (/ vget b col) b).
Proof.
  intros Pb. apply pivot_Some in Pb as (Lb & Nb & Zb). simpl in Nb, Zb.
  unfold normalize_column_Q. rewrite nth_error_vget by auto. simpl.
  destruct (Qc_eqb_spec (vget b col) 0) as [E|_]; [congruence|]. simpl. f_equal. apply vec_ext.
  - rewrite map_from_length, upd_length, vscale_length; auto.
  - rewrite map_from_length, upd_length. intros i Hi.
    rewrite vget_map_from by (rewrite upd_length; auto). rewrite !vget_upd by auto. rewrite vget_vscale.
    simpl. destruct (Nat.ltb_spec i (S col)) as [Hc|Hc]; destruct (Nat.eqb_spec i col) as [->|Hic]; try lia.
    + rewrite Qcmult_comm. symmetry. apply Qcmult_inv_r; auto.
    + rewrite Zb by lia. ring.
    + unfold Qcdiv. ring.
Qed.

#[global] Instance Qc_scalar_laws : ScalarLaws Qc.
Proof.
  split; simpl.
  - intros col v b Hl Pv Pb. apply pivot_Some in Pv as (Lv & Nv & Zv). apply pivot_Some in Pb as (Lb & Nb & Zb).
    simpl in Nv, Nb, Zv, Zb.
    unfold clear_column_Q. rewrite !nth_error_vget by auto. simpl.
    destruct (Qc_eqb_spec (vget b col) 0) as [E|_]; [congruence|]. simpl.
    rewrite covers_ok by auto. simpl.
    set (f := vget v col / vget b col).
    exists (zip_from (S col) (fun vk bk => vk - bk * f) (upd col 0 v) b), b, 1, 0, (- f), 1.
    splits; auto.
    + change (b = vadd (vscale (r1 : Qc) b) (vscale (r0 : Qc) v)). rewrite vscale_1, vscale_0, Hl. symmetry. apply vadd_0_r; auto.
    + apply vec_ext.
      * rewrite zip_from_length, upd_length, vadd_length; rewrite ?vscale_length; auto.
      * rewrite zip_from_length, upd_length. intros i Hi.
        rewrite vget_zip_from by (rewrite upd_length; auto). rewrite vget_vadd by (rewrite !vscale_length; auto).
        rewrite !vget_vscale, !vget_upd by auto. simpl.
        destruct (Nat.ltb_spec i (S col)) as [Hc|Hc]; destruct (Nat.eqb_spec i col) as [->|Hic]; try lia.
        -- unfold f. field. auto.
        -- rewrite Zv, Zb by lia. ring.
        -- ring.
    + rewrite vget_zip_from by (rewrite upd_length; auto).
      destruct (Nat.ltb_spec col (S col)); [|lia]. rewrite vget_upd, Nat.eqb_refl by auto. reflexivity.
  - intros col b Pb. rewrite normalize_Q_eq by auto. exists (/ vget b col), (vget b col). split; auto.
    rewrite Qcmult_comm. apply Qcmult_inv_r. apply pivot_Some in Pb as (_ & Nb & _). auto.
  - intros col v b b' Hl Pb Hn _. rewrite normalize_Q_eq in Hn by auto. injection Hn as <-.
    apply pivot_Some in Pb as (Lb & Nb & Zb). simpl in Nb, Zb.
    unfold reduce_column_Q. rewrite nth_error_vget by lia. simpl.
    rewrite covers_ok by (rewrite vscale_length; auto). simpl.
    exists (- vget v col). f_equal. apply vec_ext.
    + rewrite zip_from_length, upd_length, vadd_length; rewrite ?vscale_length; auto.
    + rewrite zip_from_length, upd_length. intros i Hi.
      rewrite vget_zip_from by (rewrite upd_length, ?vscale_length; auto).
      rewrite vget_vadd by (rewrite !vscale_length; auto).
      rewrite !vget_vscale, !vget_upd by lia. simpl.
      destruct (Nat.ltb_spec i (S col)) as [Hc|Hc]; destruct (Nat.eqb_spec i col) as [->|Hic]; try lia.
      * field. auto.
      * rewrite (Zb i) by lia. ring.
      * ring.
Qed.
Close Scope Qc_scope.
