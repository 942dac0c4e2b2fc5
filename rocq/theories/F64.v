(** The implementation of the trait [Scalar] for f64 (src/arithmetic/linear_algebra.rs 68-101).

    f64 is IEEE 754 binary64 with rounding to nearest even, as specified in the standard library's
    SpecFloat (NaN without payload).  The model of [impl LinearAlgebra for Matrix] in LinAlg.v is generic
    over the scalar operations, so rank, determinant, reduced_basis, solve, null_space and inverse of
    Matrix<f64> are instances of the definitions there, and the matrix operations of those in Matrix.v. *)
From Coq Require Import List ZArith Lia Bool PeanoNat.
From Coq Require Import Floats.SpecFloat.
From Verif Require Import Base Vec Elim Scalars Matrix LinAlg.
Import ListNotations.
Open Scope nat_scope.

(** f64 *)
Definition float := spec_float.
(** 0.0 and 1.0 *)
Definition f_zero : float := S754_zero false.
Definition f_one : float := S754_finite false 4503599627370496 (-52).
(** the operators +, -, *, / of f64 *)
Definition f_add : float -> float -> float := SFadd 53 1024.
Definition f_sub : float -> float -> float := SFsub 53 1024.
Definition f_mul : float -> float -> float := SFmul 53 1024.
Definition f_div : float -> float -> float := SFdiv 53 1024.

(** num_traits: Zero::zero, One::one for f64; is_zero is [*self == 0.0], true for both zeros *)
#[global] Instance float_dom : Dom float := {|
  r0 := f_zero; r1 := f_one; radd := f_add; rmul := f_mul; rsub := f_sub; ropp := SFopp;
  reqb := SFeqb |}.

(** linear_algebra.rs 69-76: clear_column *)
Definition clear_column_f (col : nat) (v b : list float) : outcome (list float * list float) :=
  do vc <- unwrap (nth_error v col);
  do bc <- unwrap (nth_error b col);
  let f := f_div vc bc in
  do _ <- covers v b;
  Ret (zip_from (S col) (fun vk bk => f_sub vk (f_mul bk f)) (upd col f_zero v) b, b).

(** linear_algebra.rs 78-85: normalize_column *)
Definition normalize_column_f (col : nat) (v : list float) : outcome (list float) :=
  do f <- unwrap (nth_error v col);
  Ret (map_from (S col) (fun x => f_div x f) (upd col f_one v)).

(** linear_algebra.rs 87-94: reduce_column *)
Definition reduce_column_f (col : nat) (v b : list float) : outcome (list float) :=
  do f <- unwrap (nth_error v col);
  do _ <- covers v b;
  Ret (zip_from (S col) (fun vk bk => f_sub vk (f_mul bk f)) (upd col f_zero v) b).

(** linear_algebra.rs 96-100: solve_row *)
Definition solve_row_f (a : list float) (x : list (list float)) (b : list float) : outcome (option (list float)) :=
  Ret (Some b).

(** linear_algebra.rs 68-101: impl Scalar for f64 *)
#[global] Instance float_scalar : Scalar float := {|
  s_clear := clear_column_f;
  s_normalize := normalize_column_f;
  s_reduce := reduce_column_f;
  s_solve_row := solve_row_f |}.

(** ** elimination keeps its shape, whatever the entries are *)

(** [x == 0.0] *)
Definition isz (x : float) : bool := SFeqb x f_zero.

Lemma isz_eq x : isz x = true <-> exists s, x = S754_zero s.
Proof.
  unfold isz, SFeqb, f_zero. destruct x as [s|s| |s m e]; simpl.
  - split; eauto.
  - destruct s; split; try discriminate; intros (t & E); discriminate.
  - split; [discriminate|]. intros (t & E); discriminate.
  - destruct s; split; try discriminate; intros (t & E); discriminate.
Qed.

Lemma isz_opp x : isz (SFopp x) = isz x.
Proof. destruct x as [s|s| |s m e]; auto; destruct s; reflexivity. Qed.

(** zero or NaN *)
Definition soft (x : float) : Prop := isz x = true \/ x = S754_nan.

Lemma soft_mul z f : soft z -> soft (f_mul z f).
Proof.
  intros [H| ->].
  - apply isz_eq in H as (s & ->). unfold f_mul, SFmul, soft.
    destruct f as [t|t| |t m e]; rewrite ?isz_eq; eauto.
  - right. reflexivity.
Qed.

Lemma soft_sub x z : soft x -> soft z -> soft (f_sub x z).
Proof.
  intros [H| ->] [H'| ->]; try (right; reflexivity).
  - apply isz_eq in H as (s & ->). apply isz_eq in H' as (t & ->). unfold f_sub, SFsub, soft.
    left. apply isz_eq. destruct (Bool.eqb s (negb t)); eauto.
  - apply isz_eq in H as (s & ->). right. reflexivity.
Qed.

Lemma hard_sub x z : isz x = false -> soft z -> isz (f_sub x z) = false.
Proof.
  intros Hx [H| ->].
  - apply isz_eq in H as (s & ->). destruct x as [t|t| |t m e]; try discriminate; try exact Hx; try reflexivity.
  - destruct x; reflexivity.
Qed.

Notation fvec := (list float).

(** the first non-zero entry *)
Lemma fpivot_Some (v : fvec) k :
  pivot v = Some k <->
  (k < length v /\ isz (vget v k) = false /\ (forall i, i < k -> isz (vget v i) = true)).
Proof.
  unfold vget. revert k; induction v as [|a v IH]; intros k; simpl.
  - split; [discriminate|]. intros (A & _). lia.
  - change (SFeqb a f_zero) with (isz a). destruct (isz a) eqn:Ha.
    + destruct (pivot v) as [j|] eqn:Ej; simpl.
      * split.
        -- intros X. injection X as <-. destruct (proj1 (IH j) eq_refl) as (A & B & C).
           repeat split; auto; try lia. intros [|i] Hi; auto. apply C. lia.
        -- intros (A & B & C). destruct k as [|k]; [congruence|]. f_equal.
           assert (Some j = Some k) as X; [|congruence]. apply IH. repeat split; auto; try lia.
           intros i Hi. apply (C (S i)). lia.
      * split; [discriminate|]. intros (A & B & C). destruct k as [|k]; [congruence|].
        assert (None = Some k) as X; [|discriminate]. apply IH. repeat split; auto; try lia.
        intros i Hi. apply (C (S i)). lia.
    + split.
      * intros X. injection X as <-. repeat split; auto; try lia.
      * intros (A & B & C). destruct k as [|k]; auto. specialize (C 0). simpl in C. rewrite C in Ha by lia. discriminate.
Qed.

Lemma fpivot_None (v : fvec) : pivot v = None <-> (forall i, i < length v -> isz (vget v i) = true).
Proof.
  unfold vget. induction v as [|a v IH]; simpl.
  - split; auto. intros _ i Hi. lia.
  - change (SFeqb a f_zero) with (isz a). destruct (isz a) eqn:Ha.
    + destruct (pivot v) as [j|]; simpl.
      * split; [discriminate|]. intros C. assert (Some j = None) as X; [|discriminate].
        apply IH. intros i Hi. apply (C (S i)). lia.
      * split; auto. intros _ [|i] Hi; auto. apply IH; auto. lia.
    + split; [discriminate|]. intros C. specialize (C 0). simpl in C. rewrite C in Ha by lia. discriminate.
Qed.

Lemma nth_error_fget (v : fvec) i : i < length v -> nth_error v i = Some (vget v i).
Proof. apply nth_error_vget. Qed.

(** what clear_column does *)
Lemma clear_f col (v b : fvec) :
  length v = length b -> col < length b ->
  exists v', s_clear col v b = Ret (v', b) /\ length v' = length b /\
    (forall i, i < col -> vget v' i = vget v i) /\ vget v' col = f_zero /\
    (forall i, col < i -> i < length b ->
       vget v' i = f_sub (vget v i) (f_mul (vget b i) (f_div (vget v col) (vget b col)))).
Proof.
  intros Hl Hc. simpl. unfold clear_column_f.
  rewrite !nth_error_fget by lia. simpl. rewrite covers_ok by auto. simpl.
  eexists. split; [reflexivity|].
  rewrite zip_from_length, upd_length. split; [auto|].
  assert (G : forall i, i < length b -> vget (zip_from (S col) (fun vk bk => f_sub vk (f_mul bk (f_div (vget v col) (vget b col)))) (upd col f_zero v) b) i
    = if Nat.ltb i (S col) then vget (upd col f_zero v) i else
       f_sub (vget (upd col f_zero v) i) (f_mul (vget b i) (f_div (vget v col) (vget b col)))).
  { intros i Hi. rewrite vget_zip_from; rewrite ?upd_length; auto. lia. }
  repeat split.
  - intros i Hi. rewrite G by lia. destruct (Nat.ltb_spec i (S col)); [|lia].
    rewrite vget_upd by lia. destruct (Nat.eqb_spec i col); auto. lia.
  - rewrite G by lia. destruct (Nat.ltb_spec col (S col)); [|lia].
    rewrite vget_upd by lia. rewrite Nat.eqb_refl. auto.
  - intros i Hi Hb. rewrite G by lia. destruct (Nat.ltb_spec i (S col)); [lia|].
    rewrite vget_upd by lia. destruct (Nat.eqb_spec i col); auto. lia.
Qed.

Lemma clear_f_pivot col (v b v' : fvec) :
  length v = length b -> pivot v = Some col -> s_clear col v b = Ret (v', b) ->
  length v' = length b /\ forall i, i <= col -> isz (vget v' i) = true.
Proof.
  intros Hl Hp H. apply fpivot_Some in Hp as (Lp & _ & Zp).
  destruct (clear_f col v b Hl) as (v2 & E & L & A & B & _); [lia|].
  assert (v2 = v') as -> by congruence. split; auto.
  intros i Hi. destruct (Nat.eq_dec i col) as [->|Hn]; [rewrite B; reflexivity|].
  rewrite A by lia. apply Zp. lia.
Qed.

(** extend_basis on an echelon basis *)
Lemma extend_f n bs : forall (v : fvec) k,
  lens n bs -> length v = n -> echelon_from k bs -> (forall i, i < k -> isz (vget v i) = true) ->
  exists bs', extend_basis v bs = Ret bs' /\ lens n bs' /\ echelon_from k bs' /\
    length bs <= length bs' <= S (length bs).
Proof.
  induction bs as [|b bs IH]; intros v k L Hv E Hz; cbn [extend_basis length].
  - destruct (pivot v) as [p|] eqn:Hp.
    + exists [v]. splits; auto; simpl; try lia.
      * constructor; auto.
      * econstructor; eauto; [|constructor]. destruct (Nat.le_gt_cases k p); auto.
        apply fpivot_Some in Hp as (_ & Hn & _). rewrite Hz in Hn by auto. discriminate.
    + exists []. splits; simpl; auto; constructor.
  - apply lens_cons in L as (Lb & L). inversion E as [|? p ? ? Hp Hk E']; subst.
    rewrite Hv, Nat.eqb_refl. cbn [assert bind].
    destruct (pivot v) as [col|] eqn:Hc.
    2: { exists (b :: bs). splits; auto. constructor; auto. }
    rewrite Hp. cbn [unwrap bind].
    assert (Hkc : k <= col).
    { destruct (Nat.le_gt_cases k col); auto. apply fpivot_Some in Hc as (_ & Hn & _).
      rewrite Hz in Hn by auto. discriminate. }
    destruct (Nat.ltb_spec col p) as [Hlt|Hge].
    + eexists. split; [reflexivity|].
      set (w := if Nat.odd (S (length bs)) then map ropp v else v).
      assert (Lw : length w = length v) by (unfold w; destruct (Nat.odd _); rewrite ?map_length; auto).
      assert (Pw : pivot w = Some col).
      { unfold w. destruct (Nat.odd _); auto.
        clear -Hc. revert col Hc. induction v as [|a v IHv]; intros col; simpl; [discriminate|].
        change (SFeqb (SFopp a) f_zero) with (isz (SFopp a)). rewrite isz_opp. unfold isz.
        destruct (SFeqb a f_zero); auto.
        destruct (pivot v) as [q|]; simpl; [|discriminate]. intros X. injection X as <-.
        simpl in IHv; rewrite (IHv q); auto. }
      splits; simpl; try lia.
      * constructor; [congruence|]. constructor; auto.
      * econstructor; eauto. econstructor; eauto.
    + destruct (Nat.eqb_spec col p) as [->|Hne].
      * pose proof Hc as Hc'. apply fpivot_Some in Hc' as (Lp & _ & Zp).
        destruct (clear_f p v b) as (v' & Ev & Lv & _); [congruence|congruence|].
        rewrite Ev. cbn [bind].
        destruct (clear_f_pivot p v b v' ltac:(congruence) Hc Ev) as (Lv' & Zv').
        destruct (IH v' (S p)) as (bs' & Eb & Lb' & Ee & Hlen); auto; [intros; apply Zv'; lia|].
        rewrite Eb. simpl. exists (b :: bs'). splits; auto; simpl; try lia.
        -- constructor; auto.
        -- econstructor; eauto.
      * destruct (IH v (S p)) as (bs' & Eb & Lb' & Ee & Hlen); auto.
        { intros i Hi. apply fpivot_Some in Hc as (_ & _ & Zc). apply Zc. lia. }
        rewrite Eb. simpl. exists (b :: bs'). splits; auto; simpl; try lia.
        -- constructor; auto.
        -- econstructor; eauto.
Qed.

Lemma extend_all_f n rows : forall bs, lens n bs -> lens n rows -> echelon_from 0 bs ->
  exists bs', extend_all bs rows = Ret bs' /\ lens n bs' /\ echelon_from 0 bs' /\
    length bs <= length bs' <= length bs + length rows.
Proof.
  unfold extend_all. induction rows as [|v rows IH]; intros bs Lb Lr E; simpl.
  - exists bs. splits; auto. lia.
  - apply lens_cons in Lr as (Lv & Lr).
    destruct (extend_f n bs v 0) as (bs1 & E1 & L1 & Ee1 & H1); auto; [lia|].
    rewrite E1. simpl. destruct (IH bs1) as (bs2 & E2 & L2 & Ee2 & H2); auto.
    exists bs2. splits; auto; lia.
Qed.

(** an echelon basis has at most as many rows as columns *)
Lemma echelon_bound n bs : forall k, lens n bs -> echelon_from k bs -> bs = [] \/ k + length bs <= n.
Proof.
  induction bs as [|b bs IH]; intros k L E; [auto|right].
  apply lens_cons in L as (Lb & L). inversion E as [|? p ? ? Hp Hk E']; subst.
  apply fpivot_Some in Hp as (Hp & _). destruct (IH (S p) L E') as [->|H]; simpl; lia.
Qed.

Lemma echelon_le n (bs : list fvec) : lens n bs -> echelon_from 0 bs -> length bs <= n.
Proof. intros L E. destruct (echelon_bound n bs 0 L E) as [->|H]; simpl; lia. Qed.
