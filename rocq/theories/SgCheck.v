(** A checker for lists of operators: do they form a group together with the integer translations, and do two lists describe the same
    group in different coordinates?  The operators are turned into rows of integers; the last entry of a row is the shift, times 24.
    The checker is not part of the code; the lemmas say that what it accepts is a space group in the sense of SgSpec.v. *)
From Coq Require Import List ZArith Lia Bool PeanoNat QArith Qcanon FMapPositive.
From Verif Require Import Base QcTac Scalars ZQ Matrix Geometry Lattices Props_Lattices SgSpec.
Import ListNotations.
Close Scope Q_scope. Close Scope Qc_scope.
Open Scope nat_scope.

Notation iop := (list (list Z)).
(** ** integer rows *)
Definition scaled (d : Z) (q : Qc) : option Z := let m := Zpos (Qden q) in if (d mod m =? 0)%Z then Some (Qnum q * (d / m))%Z else None.
Fixpoint all_some {A} (l : list (option A)) : option (list A) :=
  match l with [] => Some [] | Some a :: r => match all_some r with Some b => Some (a :: b) | None => None end | None :: _ => None end.
(** the rows of an affine map: the linear part times dl, the shift times ds *)
Definition rows_of (n : nat) (dl ds : Z) (a : @affine Qc) : option iop :=
  all_some (map (fun i => all_some (map (fun j => scaled dl (ent (lin a) i j)) (seq 0 n) ++ [scaled ds (ent (shift a) i 0)])) (seq 0 n)).
Fixpoint zadd (r s : list Z) : list Z := match r, s with a :: r', b :: s' => (a + b)%Z :: zadd r' s' | _, _ => [] end.
Definition axpy (c : Z) (r acc : list Z) : list Z := match c with Z0 => acc | Zpos xH => zadd r acc | _ => zadd (map (Z.mul c) r) acc end.
Fixpoint comb (n : nat) (cs : list Z) (rows : iop) {struct rows} : list Z :=
  match rows with [] => repeat 0%Z n ++ cs | r :: rows' => match cs with c :: cs' => axpy c r (comb n cs' rows') | [] => repeat 0%Z n ++ cs end end.
Definition times (n : nat) (g s : iop) : iop := map (fun r => comb n r s) g.
Fixpoint modlast (r : list Z) : list Z := match r with [] => [] | [c] => [c mod 24]%Z | c :: r' => c :: modlast r' end.
Definition reduce (p : iop) : iop := map modlast p.
(** rows whose linear part is multiplied by 576 and whose shift is multiplied by 576 *)
Fixpoint divrow (r : list Z) : option (list Z) :=
  match r with
  | [] => None
  | [c] => if (24 * (c / 24) =? c)%Z then Some [c / 24]%Z else None
  | c :: r' => if (576 * (c / 576) =? c)%Z then match divrow r' with Some s => Some (c / 576 :: s)%Z | None => None end else None
  end.
Definition unit_row (n i : nat) : list Z := repeat 0%Z i ++ [1%Z] ++ repeat 0%Z (n - i).
Definition one (n : nat) : iop := map (unit_row n) (seq 0 n).
Definition unit_translation (n k : nat) : iop := map (fun i => zadd (unit_row n i) (repeat 0%Z n ++ [if Nat.eqb i k then 24%Z else 0%Z])) (seq 0 n).

(** ** what the rows do to a point; e is the unit of the last entry *)
Fixpoint arow (e : Qc) (r : list Z) (x : list Qc) : Qc :=
  match r with [] => 0%Qc | c :: r' => match x with a :: x' => (ZQ c * a + arow e r' x')%Qc | [] => (ZQ c * e)%Qc end end.
Definition act (e : Qc) (p : iop) (x : list Qc) : list Qc := map (fun r => arow e r x) p.
Definition shape (n : nat) (p : iop) : Prop := length p = n /\ Forall (fun r => length r = S n) p.

Lemma zadd_length n r s : length r = n -> length s = n -> length (zadd r s) = n.
Proof. revert n s. induction r as [|a r IH]; intros n [|b s] Hr Hs; cbn in *; try congruence; try lia. destruct n; try lia. f_equal. apply IH; lia. Qed.
Lemma arow_add e : forall r s x, length r = S (length x) -> length s = S (length x) -> arow e (zadd r s) x = (arow e r x + arow e s x)%Qc.
Proof.
  induction r as [|a r IH]; intros [|b s] x Hr Hs; try discriminate. destruct x as [|v x]; cbn [zadd arow length] in *.
  - rewrite ZQ_add. ring.
  - rewrite IH by lia. rewrite ZQ_add. ring.
Qed.
Lemma arow_scale e c : forall r x, arow e (map (Z.mul c) r) x = (ZQ c * arow e r x)%Qc.
Proof. induction r as [|a r IH]; intros x; cbn [map arow]; [ring|]. destruct x as [|v x]; rewrite ?IH, ZQ_mul; ring. Qed.
Lemma arow_zeros e c : forall n x, length x = n -> arow e (repeat 0%Z n ++ [c]) x = (ZQ c * e)%Qc.
Proof.
  induction n as [|n IH]; intros [|v x] H; try discriminate; cbn [repeat app arow]; auto. rewrite IH by (cbn in H; lia). change (ZQ 0) with 0%Qc. ring.
Qed.
Lemma axpy_length n c r acc : length r = n -> length acc = n -> length (axpy c r acc) = n.
Proof. intros Hr Ha. unfold axpy. destruct c as [|p|p]; auto. - destruct p; apply zadd_length; auto; rewrite map_length; auto. - apply zadd_length; auto; rewrite map_length; auto. Qed.
Lemma arow_axpy e c r acc x : length r = S (length x) -> length acc = S (length x) -> arow e (axpy c r acc) x = (ZQ c * arow e r x + arow e acc x)%Qc.
Proof.
  intros Hr Ha. assert (G : arow e (zadd (map (Z.mul c) r) acc) x = (ZQ c * arow e r x + arow e acc x)%Qc) by (rewrite arow_add, arow_scale; auto; rewrite map_length; auto).
  unfold axpy. destruct c as [|p|p]; auto.
  - change (ZQ 0) with 0%Qc. ring.
  - destruct p; auto. rewrite arow_add by auto. change (ZQ 1) with 1%Qc. ring.
Qed.
Lemma comb_ok e n : forall rows cs x, Forall (fun r => length r = S n) rows -> length cs = S (length rows) -> length x = n ->
  length (comb n cs rows) = S n /\ arow e (comb n cs rows) x = arow e cs (map (fun r => arow e r x) rows).
Proof.
  induction rows as [|r rows IH]; intros cs x F L Lx; cbn [comb map].
  - destruct cs as [|c [|]]; try discriminate. split; [rewrite app_length, repeat_length; cbn; lia|]. rewrite arow_zeros by auto. reflexivity.
  - destruct cs as [|c cs]; try discriminate. inversion F; subst. destruct (IH cs x) as [Lc E]; auto. split; [apply axpy_length; auto|]. rewrite arow_axpy by (auto; lia). cbn [arow]. rewrite E. ring.
Qed.
Lemma times_shape n g s : shape n g -> shape n s -> shape n (times n g s).
Proof.
  intros [Lg Fg] [Ls Fs]. unfold times. split; [rewrite map_length; auto|]. apply Forall_forall. intros r Hr. apply in_map_iff in Hr as (c & <- & Hc). rewrite Forall_forall in Fg.
  apply (comb_ok 0%Qc n s c (repeat 0%Qc n)); auto; [rewrite Ls; auto|apply repeat_length].
Qed.
Lemma act_times e n g s x : shape n g -> shape n s -> length x = n -> act e (times n g s) x = act e g (act e s x).
Proof.
  intros [Lg Fg] [Ls Fs] Lx. unfold act, times. rewrite map_map. apply map_ext_in. intros c Hc. rewrite Forall_forall in Fg. apply comb_ok; auto. rewrite Ls; auto.
Qed.
Lemma act_length e p x : length (act e p x) = length p.
Proof. apply map_length. Qed.
Lemma act_point e n p x : shape n p -> point n (act e p x).
Proof. intros [L _]. unfold point. rewrite act_length. auto. Qed.
(** scaling of the point *)
Lemma arow_homogeneous t e : forall r x, arow (t * e)%Qc r (map (Qcmult t) x) = (t * arow e r x)%Qc.
Proof. induction r as [|c r IH]; intros [|v x]; cbn [map arow]; try ring. rewrite IH. ring. Qed.
Lemma act_homogeneous t e p x : act (t * e)%Qc p (map (Qcmult t) x) = map (Qcmult t) (act e p x).
Proof. unfold act. rewrite map_map. apply map_ext. intros. apply arow_homogeneous. Qed.

(** ** sums of points *)
Lemma from_cons n f : from_coordinates (S n) f = f 0 :: from_coordinates n (fun i => f (S i)).
Proof. unfold from_coordinates. cbn [seq map]. f_equal. rewrite <- seq_shift, map_map. reflexivity. Qed.
Lemma plus_cons n a b x y : plus (S n) (a :: x) (b :: y) = (a + b)%Qc :: plus n x y.
Proof. unfold plus. rewrite from_cons. reflexivity. Qed.
Lemma whole_cons n a z : whole (S n) (a :: z) = ZQ a :: whole n z.
Proof. unfold whole. rewrite from_cons. reflexivity. Qed.
Lemma plus_point n x y : point n (plus n x y).
Proof. unfold point, plus, from_coordinates. rewrite map_length, seq_length. auto. Qed.
Lemma whole_point n z : point n (whole n z).
Proof. unfold point, whole, from_coordinates. rewrite map_length, seq_length. auto. Qed.
Lemma nth_seq_map (f : nat -> Z) n i : i < n -> nth i (map f (seq 0 n)) 0%Z = f i.
Proof. intros Hi. rewrite nth_indep with (d' := f 0) by (rewrite map_length, seq_length; auto). rewrite map_nth, seq_nth by auto. reflexivity. Qed.
Lemma whole_firstn n z : exists z', length z' = n /\ whole n z = whole n z'.
Proof.
  exists (map (fun i => nth i z 0%Z) (seq 0 n)). split; [rewrite map_length, seq_length; auto|]. unfold whole, from_coordinates. apply map_ext_in. intros i Hi. apply in_seq in Hi.
  rewrite nth_seq_map by lia. reflexivity.
Qed.
Lemma nth_from n f i : i < n -> nth i (from_coordinates n f) 0%Qc = f i.
Proof. intros Hi. unfold from_coordinates. rewrite nth_indep with (d' := f 0) by (rewrite map_length, seq_length; auto). rewrite map_nth, seq_nth by auto. reflexivity. Qed.
Lemma plus_nth n x y i : i < n -> nth i (plus n x y) 0%Qc = (nth i x 0 + nth i y 0)%Qc.
Proof. intros Hi. unfold plus. rewrite nth_from by auto. reflexivity. Qed.
Lemma whole_nth n z i : i < n -> nth i (whole n z) 0%Qc = ZQ (nth i z 0%Z).
Proof. intros Hi. unfold whole. rewrite nth_from by auto. reflexivity. Qed.
Lemma point_ext n x y : point n x -> point n y -> (forall i, i < n -> nth i x 0%Qc = nth i y 0%Qc) -> x = y.
Proof. intros Hx Hy H. apply nth_ext with (d := 0%Qc) (d' := 0%Qc); unfold point in *; [congruence|]. intros i Hi. apply H. lia. Qed.
Definition zneg (n : nat) (z : list Z) : list Z := map (fun i => (- nth i z 0)%Z) (seq 0 n).
Definition zsum (n : nat) (z w : list Z) : list Z := map (fun i => (nth i z 0 + nth i w 0)%Z) (seq 0 n).
Lemma plus_whole n x z w : plus n (plus n x (whole n z)) (whole n w) = plus n x (whole n (zsum n z w)).
Proof.
  apply (point_ext n); try apply plus_point. intros i Hi. rewrite !plus_nth, !whole_nth by auto. unfold zsum. rewrite nth_seq_map by auto. rewrite ZQ_add. ring.
Qed.
Lemma plus_neg n x z : point n x -> plus n (plus n x (whole n z)) (whole n (zneg n z)) = x.
Proof.
  intros Hx. apply (point_ext n); auto; try apply plus_point. intros i Hi. rewrite !plus_nth, !whole_nth by auto. unfold zneg. rewrite nth_seq_map by auto. rewrite ZQ_opp. ring.
Qed.
Lemma plus_zero n x : point n x -> plus n x (whole n []) = x.
Proof. intros Hx. apply (point_ext n); auto; try apply plus_point. intros i Hi. rewrite plus_nth, whole_nth by auto. destruct i; change (ZQ _) with 0%Qc; ring. Qed.
(** an integer translation of the point becomes an integer translation of the image *)
Fixpoint lrow (r z : list Z) : Z := match r, z with c :: r', a :: z' => (c * a + lrow r' z')%Z | _, _ => 0%Z end.
Lemma arow_translation e : forall r n x z, point n x -> length z = n -> length r = S n -> arow e r (plus n x (whole n z)) = (arow e r x + ZQ (lrow r z))%Qc.
Proof.
  induction r as [|c r IH]; intros [|n] [|v x] [|w z] Hx Hz Hr; try discriminate.
  - cbn. ring_simplify. change (ZQ 0) with 0%Qc. ring.
  - rewrite whole_cons, plus_cons. cbn [arow lrow]. rewrite IH by (unfold point in *; cbn in *; lia). rewrite ZQ_add, ZQ_mul. ring.
Qed.
Lemma act_translation e n p x z : shape n p -> point n x -> exists z', act e p (plus n x (whole n z)) = plus n (act e p x) (whole n z').
Proof.
  intros [L F] Hx. destruct (whole_firstn n z) as (z1 & Lz & ->). exists (map (fun r => lrow r z1) p). apply (point_ext n); [unfold point; rewrite act_length; auto|apply plus_point|].
  intros i Hi. rewrite plus_nth, whole_nth by auto. unfold act.
  assert (Hl : i < length p) by lia. destruct (nth_error p i) as [r|] eqn:Er; [|apply nth_error_None in Er; lia].
  rewrite !(nth_error_nth _ _ _ (map_nth_error _ _ _ Er)). rewrite Forall_forall in F. apply arow_translation; auto. apply F. eapply nth_error_In; eauto.
Qed.
(** ** reduction of the shift *)
Definition q24 : Qc := (/ ZQ 24)%Qc.
Lemma q24_ok : (ZQ 24 * q24 = 1)%Qc.
Proof. unfold q24. apply Qcmult_inv_r. intros H. apply (f_equal (fun q : Qc => Qnum (this q))) in H. vm_compute in H. discriminate. Qed.
Lemma modlast_length r : length (modlast r) = length r.
Proof. induction r as [|c [|d r] IH]; auto. change (length (c :: modlast (d :: r)) = length (c :: d :: r)). cbn [length] in *. lia. Qed.
Lemma modlast_ok : forall r x, length r = S (length x) -> arow q24 r x = (arow q24 (modlast r) x + ZQ (last r 0 / 24)%Z)%Qc.
Proof.
  induction r as [|c [|d r] IH]; intros x H; try discriminate.
  - destruct x; try discriminate. cbn [modlast arow last]. rewrite (Z.div_mod c 24) at 1 by lia. rewrite ZQ_add, ZQ_mul. pose proof q24_ok as Q. transitivity (ZQ (c / 24) * (ZQ 24 * q24) + ZQ (c mod 24) * q24)%Qc; [ring|]. rewrite Q. ring.
  - destruct x as [|v x]; try discriminate. change (modlast (c :: d :: r)) with (c :: modlast (d :: r)). change (last (c :: d :: r) 0%Z) with (last (d :: r) 0%Z). cbn [arow]. cbn [arow] in IH. rewrite IH by (cbn in *; lia). ring.
Qed.
Lemma reduce_shape n p : shape n p -> shape n (reduce p).
Proof. intros [L F]. unfold reduce. split; [rewrite map_length; auto|]. apply Forall_forall. intros r Hr. apply in_map_iff in Hr as (s & <- & Hs). rewrite modlast_length. rewrite Forall_forall in F. auto. Qed.
Lemma reduce_ok n p : shape n p -> exists z, forall x, point n x -> act q24 p x = plus n (act q24 (reduce p) x) (whole n z).
Proof.
  intros [L F]. exists (map (fun r => last r 0 / 24)%Z p). intros x Hx. apply (point_ext n); [unfold point; rewrite act_length; auto|apply plus_point|].
  intros i Hi. rewrite plus_nth, whole_nth by auto. unfold act, reduce. destruct (nth_error p i) as [r|] eqn:Er; [|apply nth_error_None in Er; lia].
  rewrite map_map. rewrite (nth_error_nth _ _ _ (map_nth_error (fun r => arow q24 r x) _ _ Er)), (nth_error_nth _ _ _ (map_nth_error (fun r => arow q24 (modlast r) x) _ _ Er)), (nth_error_nth _ _ _ (map_nth_error (fun r => last r 0 / 24)%Z _ _ Er)).
  apply modlast_ok. rewrite Forall_forall in F. unfold point in Hx. rewrite Hx. apply F. eapply nth_error_In; eauto.
Qed.

(** ** the rows of an affine map *)
Lemma scaled_ok d q z : scaled d q = Some z -> ZQ z = (ZQ d * q)%Qc.
Proof.
  unfold scaled. destruct (Z.eqb_spec (d mod Zpos (Qden q)) 0) as [E|]; [|discriminate]. intros [= <-]. apply Z.mod_divide in E as [k ->]; [|discriminate]. rewrite Z.div_mul by discriminate.
  apply Qc_is_canon. unfold ZQ. cbn [this Qcmult Q2Qc]. rewrite !Qred_correct. destruct q as [[n m] C]. cbn [this Qnum Qden]. unfold Qeq, Qmult, inject_Z. cbn [Qnum Qden]. lia.
Qed.
Lemma all_some_ok {A} (l : list (option A)) r : all_some l = Some r -> l = map Some r.
Proof. revert r. induction l as [|[a|] l IH]; intros r; cbn [all_some]; try discriminate; [intros [= <-]; auto|]. destruct (all_some l) as [b|]; try discriminate. intros [= <-]. cbn [map]. rewrite (IH b); auto. Qed.
Lemma row_ok dl ds e : (ZQ ds * e = ZQ dl)%Qc -> forall n f t r x, point n x -> map (fun j => scaled dl (f j)) (seq 0 n) ++ [scaled ds t] = map Some r ->
  length r = S n /\ arow e r x = (ZQ dl * (fold_right Qcplus 0 (map (fun j => f j * coordinate j x) (seq 0 n)) + t))%Qc.
Proof.
  intros He. induction n as [|n IH]; intros f t r x Hx H.
  - destruct x; [|discriminate Hx]. cbn [seq map app] in H. destruct r as [|c [|]]; try discriminate H. cbn [map] in H. injection H as H. apply scaled_ok in H. split; auto. cbn [arow seq map fold_right]. rewrite H, <- He. ring.
  - destruct x as [|v x]; [discriminate Hx|]. cbn [seq map app] in H. rewrite <- seq_shift, map_map in H. destruct r as [|c r]; try discriminate H. cbn [map] in H. injection H as H1 H2. apply scaled_ok in H1.
    destruct (IH (fun j => f (S j)) t r x) as [L E]; auto; [unfold point in *; cbn in *; lia|]. split; [cbn; lia|]. cbn [arow seq map fold_right]. rewrite E, H1, <- seq_shift, map_map. unfold coordinate. cbn [nth]. ring.
Qed.
Lemma rows_ok n dl ds a p : rows_of n dl ds a = Some p -> shape n p /\ forall e x, (ZQ ds * e = ZQ dl)%Qc -> point n x -> act e p x = map (Qcmult (ZQ dl)) (moved n a x).
Proof.
  unfold rows_of. intros H. apply all_some_ok in H.
  assert (G : forall i, i < n -> exists r, nth_error p i = Some r /\ map (fun j => scaled dl (ent (lin a) i j)) (seq 0 n) ++ [scaled ds (ent (shift a) i 0)] = map Some r).
  { intros i Hi. assert (Lp : length p = n) by (rewrite <- (map_length Some p), <- H, map_length, seq_length; auto). destruct (nth_error p i) as [r|] eqn:Er; [|apply nth_error_None in Er; lia]. exists r. split; auto.
    apply all_some_ok. apply (map_nth_error Some) in Er. rewrite <- H in Er.
    assert (Es : nth_error (seq 0 n) i = Some i) by (rewrite nth_error_nth' with (d := 0) by (rewrite seq_length; auto); rewrite seq_nth by auto; auto).
    rewrite (map_nth_error _ _ _ Es) in Er. congruence. }
  assert (Lp : length p = n) by (rewrite <- (map_length Some p), <- H, map_length, seq_length; auto).
  split.
  - split; auto. apply Forall_forall. intros r Hr. apply In_nth_error in Hr as (i & Ei). assert (Hi : i < n) by (rewrite <- Lp; apply nth_error_Some; congruence).
    destruct (G i Hi) as (r' & Er & Em). rewrite Ei in Er. injection Er as <-. rewrite <- (map_length Some r), <- Em, app_length, map_length, seq_length. cbn. lia.
  - intros e x He Hx. apply (point_ext n); [unfold point; rewrite act_length; auto|unfold point, moved, from_coordinates; rewrite !map_length, seq_length; auto|].
    intros i Hi. destruct (G i Hi) as (r & Er & Em). unfold act. rewrite (nth_error_nth _ _ _ (map_nth_error _ _ _ Er)).
    destruct (row_ok dl ds e He n _ _ _ x Hx Em) as [_ ->].
    rewrite nth_indep with (d' := (ZQ dl * 0)%Qc) by (unfold moved, from_coordinates; rewrite !map_length, seq_length; auto). rewrite map_nth. unfold moved. rewrite nth_from by auto. reflexivity.
Qed.
Lemma map_one x : map (Qcmult (ZQ 1)) x = x.
Proof. induction x as [|v x IH]; auto. cbn [map]. rewrite IH. change (ZQ 1) with 1%Qc. f_equal. ring. Qed.
Lemma op_rows n a p : rows_of n 1 24 a = Some p -> shape n p /\ forall x, point n x -> act q24 p x = moved n a x.
Proof. intros H. apply rows_ok in H as [S H]. split; auto. intros x Hx. rewrite H; auto; [apply map_one|]. rewrite q24_ok. reflexivity. Qed.
Lemma rows_integral n ds a p : rows_of n 1 ds a = Some p -> integral n a.
Proof.
  unfold rows_of. intros H i j Hi Hj. apply all_some_ok in H. assert (Hx : In (all_some (map (fun j => scaled 1 (ent (lin a) i j)) (seq 0 n) ++ [scaled ds (ent (shift a) i 0)])) (map Some p)).
  { rewrite <- H. apply in_map_iff. exists i. split; auto. apply in_seq. lia. }
  apply in_map_iff in Hx as (r & Er & _). symmetry in Er. apply all_some_ok in Er.
  assert (Hy : In (scaled 1 (ent (lin a) i j)) (map Some r)). { rewrite <- Er. apply in_or_app. left. apply in_map_iff. exists j. split; auto. apply in_seq. lia. }
  apply in_map_iff in Hy as (z & Ez & _). symmetry in Ez. apply scaled_ok in Ez. exists z. rewrite Ez. change (ZQ 1) with 1%Qc. ring.
Qed.
(** rows multiplied by 576 *)
Lemma q576 : (ZQ 576 * q24 = ZQ 24)%Qc.
Proof. change 576%Z with (24 * 24)%Z. rewrite ZQ_mul. transitivity (ZQ 24 * (ZQ 24 * q24))%Qc; [ring|]. rewrite q24_ok. ring. Qed.
Lemma divrow_ok : forall r s x, length r = S (length x) -> divrow r = Some s -> length s = length r /\ arow 1%Qc r x = (ZQ 576 * arow q24 s x)%Qc.
Proof.
  induction r as [|c [|d r] IH]; intros s x L H; try discriminate.
  - cbn [divrow] in H. destruct (Z.eqb_spec (24 * (c / 24)) c) as [E|]; [|discriminate]. injection H as <-. destruct x; [|discriminate]. split; auto. cbn [arow]. rewrite <- E at 1. rewrite ZQ_mul.
    transitivity (ZQ (c / 24) * (ZQ 576 * q24))%Qc; [|ring]. rewrite q576. ring.
  - destruct x as [|v x]; [discriminate|]. change (divrow (c :: d :: r)) with (if (576 * (c / 576) =? c)%Z then match divrow (d :: r) with Some s => Some (c / 576 :: s)%Z | None => None end else None) in H.
    destruct (Z.eqb_spec (576 * (c / 576)) c) as [E|]; [|discriminate]. destruct (divrow (d :: r)) as [s'|]; [|discriminate]. injection H as <-.
    assert (Lx : length (d :: r) = S (length x)) by (cbn in *; lia). destruct (IH s' x Lx eq_refl) as [L' E']. split; [cbn [length] in *; lia|]. cbn [arow] in *. rewrite E'. rewrite <- E at 1. rewrite ZQ_mul. ring.
Qed.
Definition divided (p : iop) : option iop := all_some (map divrow p).
Lemma divided_ok n p q : shape n p -> divided p = Some q -> shape n q /\ forall x, point n x -> act 1%Qc p x = map (Qcmult (ZQ 576)) (act q24 q x).
Proof.
  intros [L F] H. unfold divided in H. apply all_some_ok in H. assert (Lq : length q = n) by (rewrite <- (map_length Some q), <- H, map_length; auto).
  assert (G : forall i, i < n -> exists r s, nth_error p i = Some r /\ nth_error q i = Some s /\ divrow r = Some s /\ length r = S n).
  { intros i Hi. destruct (nth_error p i) as [r|] eqn:Er; [|apply nth_error_None in Er; lia]. destruct (nth_error q i) as [s|] eqn:Es; [|apply nth_error_None in Es; lia]. exists r, s. repeat split; auto.
    - apply (map_nth_error divrow) in Er. rewrite H in Er. rewrite (map_nth_error Some _ _ Es) in Er. congruence.
    - rewrite Forall_forall in F. apply F. eapply nth_error_In; eauto. }
  split.
  - split; auto. apply Forall_forall. intros s Hs. apply In_nth_error in Hs as (i & Ei). assert (Hi : i < n) by (rewrite <- Lq; apply nth_error_Some; congruence). destruct (G i Hi) as (r & s' & _ & Es & D & Lr). rewrite Ei in Es. injection Es as <-.
    rewrite <- Lr. apply (divrow_ok r s (repeat 0%Qc n)); auto. rewrite repeat_length. auto.
  - intros x Hx. apply (point_ext n); [unfold point; rewrite act_length; auto|unfold point; rewrite map_length, act_length; auto|].
    intros i Hi. destruct (G i Hi) as (r & s & Er & Es & D & Lr). unfold act. rewrite map_map.
    rewrite (nth_error_nth _ _ _ (map_nth_error _ _ _ Er)), (nth_error_nth _ _ _ (map_nth_error (fun r => (ZQ 576 * arow q24 r x)%Qc) _ _ Es)). apply divrow_ok; auto. unfold point in Hx. rewrite Hx. auto.
Qed.

(** ** the identity and the unit translations *)
Lemma arow_repeat e k : forall x, arow e (repeat 0%Z k) x = 0%Qc.
Proof. induction k as [|k IH]; intros [|v x]; cbn [repeat arow]; auto; rewrite ?IH; change (ZQ 0) with 0%Qc; ring. Qed.
Lemma unit_row_length n i : i < n -> length (unit_row n i) = S n.
Proof. intros H. unfold unit_row. rewrite !app_length, !repeat_length. cbn. lia. Qed.
Lemma unit_row_ok e : forall i n x, i < n -> length x = n -> arow e (unit_row n i) x = nth i x 0%Qc.
Proof.
  induction i as [|i IH]; intros [|n] [|v x] Hi Hx; try lia; try discriminate Hx.
  - unfold unit_row. cbn [repeat app arow nth]. rewrite arow_repeat. change (ZQ 1) with 1%Qc. ring.
  - change (unit_row (S n) (S i)) with (0%Z :: unit_row n i). cbn [arow nth]. rewrite IH by (cbn in Hx; lia). change (ZQ 0) with 0%Qc. ring.
Qed.
Lemma one_shape n : shape n (one n).
Proof. unfold one. split; [rewrite map_length, seq_length; auto|]. apply Forall_forall. intros r Hr. apply in_map_iff in Hr as (i & <- & Hi). apply in_seq in Hi. apply unit_row_length. lia. Qed.
Lemma one_ok e n x : point n x -> act e (one n) x = x.
Proof.
  intros Hx. unfold act, one. rewrite map_map. apply (point_ext n); auto; [unfold point; rewrite map_length, seq_length; auto|]. intros i Hi.
  change (map (fun x0 => arow e (unit_row n x0) x) (seq 0 n)) with (from_coordinates n (fun i => arow e (unit_row n i) x)). rewrite nth_from by auto. apply unit_row_ok; auto.
Qed.
Definition unit_vector (n k : nat) : list Z := map (fun i => if Nat.eqb i k then 1%Z else 0%Z) (seq 0 n).
Lemma unit_translation_shape n k : shape n (unit_translation n k).
Proof.
  unfold unit_translation. split; [rewrite map_length, seq_length; auto|]. apply Forall_forall. intros r Hr. apply in_map_iff in Hr as (i & <- & Hi). apply in_seq in Hi.
  apply zadd_length; [apply unit_row_length; lia|rewrite app_length, repeat_length; cbn; lia].
Qed.
Lemma unit_translation_ok n k x : point n x -> act q24 (unit_translation n k) x = plus n x (whole n (unit_vector n k)).
Proof.
  intros Hx. unfold act, unit_translation. rewrite map_map. apply (point_ext n); [unfold point; rewrite map_length, seq_length; auto|apply plus_point|]. intros i Hi. unfold point in Hx.
  match goal with |- nth i (map ?f (seq 0 n)) _ = _ => change (map f (seq 0 n)) with (from_coordinates n f) end. rewrite nth_from by auto. rewrite arow_add.
  - rewrite unit_row_ok, arow_zeros by auto. rewrite plus_nth, whole_nth by auto. f_equal. unfold unit_vector. rewrite nth_seq_map by auto. destruct (Nat.eqb i k); [apply q24_ok|change (ZQ 0) with 0%Qc; ring].
  - rewrite unit_row_length by auto. congruence.
  - rewrite app_length, repeat_length. cbn. lia.
Qed.

(** ** tables of operators *)
Fixpoint pushp (p k : positive) : positive := match p with xH => xO k | xO q => xI (xO (pushp q k)) | xI q => xI (xI (pushp q k)) end.
Definition pushz (z : Z) (k : positive) : positive := match z with Z0 => xO k | Zpos p => xI (xO (pushp p k)) | Zneg p => xI (xI (pushp p k)) end.
Definition key (p : iop) : positive := fold_right (fun r k => fold_right pushz k r) xH p.
Fixpoint row_eqb (r s : list Z) : bool := match r, s with [], [] => true | a :: r', b :: s' => Z.eqb a b && row_eqb r' s' | _, _ => false end.
Fixpoint rows_eqb (p q : iop) : bool := match p, q with [], [] => true | r :: p', s :: q' => row_eqb r s && rows_eqb p' q' | _, _ => false end.
Notation map_t := (PositiveMap.t iop).
Definition found (p : iop) (m : map_t) : bool := match PositiveMap.find (key p) m with Some q => rows_eqb p q | None => false end.
Lemma row_eqb_ok r : forall s, row_eqb r s = true -> r = s.
Proof. induction r as [|a r IH]; intros [|b s] H; cbn in H; try discriminate H; auto. apply andb_prop in H as [H1 H2]. apply Z.eqb_eq in H1. subst. f_equal. auto. Qed.
Lemma rows_eqb_ok p : forall q, rows_eqb p q = true -> p = q.
Proof. induction p as [|r p IH]; intros [|s q] H; cbn in H; try discriminate H; auto. apply andb_prop in H as [H1 H2]. apply row_eqb_ok in H1. subst. f_equal. auto. Qed.
(** all that is in the table is in the list *)
Definition covers (m : map_t) (l : list iop) : Prop := forall k q, PositiveMap.find k m = Some q -> In q l.
Lemma found_in p m l : covers m l -> found p m = true -> In p l.
Proof. unfold found. intros C H. destruct (PositiveMap.find (key p) m) as [q|] eqn:E; [|discriminate]. apply rows_eqb_ok in H. subst. eapply C; eauto. Qed.
Lemma covers_add m l p : covers m l -> covers (PositiveMap.add (key p) p m) (p :: l).
Proof.
  intros C k q H. destruct (Pos.eq_dec k (key p)) as [->|N].
  - rewrite PositiveMap.gss in H. injection H as <-. left. auto.
  - rewrite PositiveMap.gso in H by auto. right. eapply C; eauto.
Qed.
Lemma covers_incl m l l' : covers m l -> incl l l' -> covers m l'.
Proof. intros C I k q H. apply I. eapply C; eauto. Qed.
Lemma covers_empty : covers (PositiveMap.empty iop) [].
Proof. intros k q H. rewrite PositiveMap.gempty in H. discriminate. Qed.
(** the table of a list in which nothing occurs twice *)
Fixpoint build (l : list iop) : option map_t :=
  match l with
  | [] => Some (PositiveMap.empty iop)
  | p :: r => match build r with Some m => match PositiveMap.find (key p) m with Some _ => None | None => Some (PositiveMap.add (key p) p m) end | None => None end
  end.
Lemma build_ok l m : build l = Some m -> covers m l /\ NoDup l.
Proof.
  assert (G : build l = Some m -> covers m l /\ NoDup l /\ forall p, In p l -> PositiveMap.find (key p) m <> None).
  { revert m. induction l as [|p l IH]; intros m; cbn [build].
    - intros [= <-]. split; [apply covers_empty|]. split; [constructor|]. intros p [].
    - destruct (build l) as [m'|]; [|discriminate]. destruct (IH m' eq_refl) as (C & N & F). destruct (PositiveMap.find (key p) m') eqn:E; [discriminate|]. intros [= <-]. split; [apply covers_add; auto|]. split.
      + constructor; auto. intros Hp. apply (F p Hp E).
      + intros q [<-|Hq]; [rewrite PositiveMap.gss; discriminate|]. destruct (Pos.eq_dec (key q) (key p)) as [->|Nk]; [rewrite PositiveMap.gss; discriminate|]. rewrite PositiveMap.gso by auto. auto. }
  intros H. apply G in H as (C & N & _). auto.
Qed.

(** ** all products of generators *)
Definition product (n : nat) (g s : iop) : iop := reduce (times n g s).
Fixpoint expand (n : nat) (gens : list iop) (s : iop) (todo : list iop) (seen : map_t) : option (list iop * map_t) :=
  match gens with
  | [] => Some (todo, seen)
  | g :: gens' =>
    let p := product n g s in
    match PositiveMap.find (key p) seen with
    | Some q => if rows_eqb p q then expand n gens' s todo seen else None
    | None => expand n gens' s (p :: todo) (PositiveMap.add (key p) p seen)
    end
  end.
Fixpoint search (fuel : nat) (n : nat) (gens todo : list iop) (seen : map_t) (out : list iop) : option (list iop * map_t) :=
  match todo with
  | [] => Some (out, seen)
  | s :: todo' => match fuel with 0 => None | S f => match expand n gens s todo' seen with Some (todo2, seen2) => search f n gens todo2 seen2 (s :: out) | None => None end end
  end.
Inductive word (n : nat) (gens : list iop) : iop -> Prop :=
| word_one : word n gens (one n)
| word_more g p : In g gens -> word n gens p -> word n gens (product n g p).
Lemma expand_ok n gens s : forall todo seen todo2 seen2 out, expand n gens s todo seen = Some (todo2, seen2) -> covers seen (todo ++ out) ->
  covers seen2 (todo2 ++ out) /\ incl todo todo2 /\ (forall p, In p todo2 -> In p todo \/ exists g, In g gens /\ p = product n g s) /\ (forall g, In g gens -> In (product n g s) (todo2 ++ out)).
Proof.
  induction gens as [|g gens IH]; intros todo seen todo2 seen2 out H C; cbn [expand] in H.
  - injection H as <- <-. repeat split; auto; [apply incl_refl|]. intros g [].
  - cbn zeta in H. destruct (PositiveMap.find (key (product n g s)) seen) as [q|] eqn:E.
    + destruct (rows_eqb (product n g s) q) eqn:Eq; [|discriminate]. apply rows_eqb_ok in Eq. destruct (IH _ _ _ _ out H C) as (C2 & I & W & P). repeat split; auto.
      * intros p Hp. destruct (W p Hp) as [|(g' & Hg & ->)]; auto. right. exists g'. split; simpl; auto.
      * intros g' [<-|Hg]; auto. rewrite Eq. apply C in E. apply in_app_iff in E as [E|E]; apply in_app_iff; auto.
    + assert (C1 : covers (PositiveMap.add (key (product n g s)) (product n g s) seen) ((product n g s :: todo) ++ out)) by (apply covers_add; auto).
      destruct (IH _ _ _ _ out H C1) as (C2 & I & W & P). repeat split; auto.
      * intros p Hp. apply I. right. auto.
      * intros p Hp. destruct (W p Hp) as [[<-|]|(g' & Hg & ->)]; auto; right; [exists g|exists g']; split; simpl; auto.
      * intros g' [<-|Hg]; auto. apply in_app_iff. left. apply I. left. auto.
Qed.
Lemma search_ok n gens : forall fuel todo seen out V seen2, search fuel n gens todo seen out = Some (V, seen2) -> covers seen (todo ++ out) ->
  (forall p, In p (todo ++ out) -> word n gens p) -> (forall p g, In p out -> In g gens -> In (product n g p) (todo ++ out)) ->
  covers seen2 V /\ incl (todo ++ out) V /\ (forall p, In p V -> word n gens p) /\ (forall p g, In p V -> In g gens -> In (product n g p) V).
Proof.
  induction fuel as [|fuel IH]; intros todo seen out V seen2 H C W P; destruct todo as [|s todo]; cbn [search] in H; try discriminate H.
  - injection H as <- <-. repeat split; auto. apply incl_refl.
  - injection H as <- <-. repeat split; auto. apply incl_refl.
  - destruct (expand n gens s todo seen) as [[todo2 seen1]|] eqn:E; [|discriminate].
    assert (C' : covers seen (todo ++ s :: out)) by (eapply covers_incl; [exact C|]; intros x Hx; apply in_app_iff; cbn in Hx; destruct Hx as [<-|Hx]; [right; left; auto|]; apply in_app_iff in Hx as [Hx|Hx]; [left; auto|right; right; auto]).
    destruct (expand_ok n gens s todo seen todo2 seen1 (s :: out) E C') as (C2 & I & Wd & Pd).
    assert (Ws : word n gens s) by (apply W; left; auto).
    assert (In2 : incl ((s :: todo) ++ out) (todo2 ++ s :: out)).
    { intros x [<-|Hx]; [apply in_app_iff; right; left; auto|]. apply in_app_iff in Hx as [Hx|Hx]; apply in_app_iff; [left; apply I; auto|right; right; auto]. }
    destruct (IH todo2 seen1 (s :: out) V seen2 H C2) as (C3 & I3 & W3 & P3).
    + intros p Hp. apply in_app_iff in Hp as [Hp|[<-|Hp]]; auto.
      * destruct (Wd p Hp) as [Ht|(g & Hg & ->)]; [apply W; right; apply in_app_iff; auto|constructor; auto].
      * apply W. right. apply in_app_iff. auto.
    + intros p g [<-|Hp] Hg; auto.
    + repeat split; auto. eapply incl_tran; eauto.
Qed.

(** ** the group: the operators in V, followed by integer translations *)
Definition mem (n : nat) (V : list iop) (f : list Qc -> list Qc) : Prop := exists v z, In v V /\ forall x, point n x -> f x = plus n (act q24 v x) (whole n z).
Definition shifted (n : nat) (z : list Z) (x : list Qc) : list Qc := plus n x (whole n z).
Section Group.
  Variables (n : nat) (gens V : list iop).
  Hypothesis gens_shape : forall g, In g gens -> shape n g.
  Hypothesis V_words : forall p, In p V -> word n gens p.
  Hypothesis V_closed : forall p g, In p V -> In g gens -> In (product n g p) V.
  Hypothesis V_one : In (one n) V.
  Hypothesis gens_inverse : forall g, In g gens -> exists q, word n gens q /\ product n q g = one n.

  Lemma word_in p : word n gens p -> In p V.
  Proof. induction 1; auto. Qed.
  Lemma word_shape p : word n gens p -> shape n p.
  Proof. induction 1; [apply one_shape|]. apply reduce_shape, times_shape; auto. Qed.
  Lemma mem_ext f g : (forall x, point n x -> f x = g x) -> mem n V f -> mem n V g.
  Proof. intros E (v & z & Hv & H). exists v, z. split; auto. intros x Hx. rewrite <- E; auto. Qed.
  Lemma mem_point f x : mem n V f -> point n x -> point n (f x).
  Proof. intros (v & z & Hv & H) Hx. rewrite H by auto. apply plus_point. Qed.
  Lemma mem_one : mem n V (fun x => x).
  Proof. exists (one n), []. split; auto. intros x Hx. rewrite one_ok, plus_zero; auto. Qed.
  Lemma mem_shift f z : mem n V f -> mem n V (fun x => shifted n z (f x)).
  Proof. intros (v & w & Hv & H). exists v, (zsum n w z). split; auto. intros x Hx. unfold shifted. rewrite H by auto. apply plus_whole. Qed.
  Lemma mem_gen g f : In g gens -> mem n V f -> mem n V (fun x => act q24 g (f x)).
  Proof.
    intros Hg (v & z & Hv & H). pose proof (gens_shape g Hg) as Sg. pose proof (word_shape v (V_words v Hv)) as Sv.
    destruct (reduce_ok n (times n g v) (times_shape n g v Sg Sv)) as (z0 & R).
    (* the translation by z becomes one by z1, the same for all points *)
    destruct (act_translation q24 n g (repeat 0%Qc n) z Sg (repeat_length _ _)) as (z1 & _).
    destruct (whole_firstn n z) as (z2 & Lz2 & Ez2).
    exists (product n g v), (zsum n z0 (map (fun r => lrow r z2) g)). split; auto. intros x Hx. rewrite H by auto. rewrite Ez2.
    assert (T : act q24 g (plus n (act q24 v x) (whole n z2)) = plus n (act q24 g (act q24 v x)) (whole n (map (fun r => lrow r z2) g))).
    { destruct Sg as [Lg Fg]. apply (point_ext n); [unfold point; rewrite act_length; auto|apply plus_point|]. intros i Hi. rewrite plus_nth, whole_nth by auto. unfold act at 1 3.
      destruct (nth_error g i) as [r|] eqn:Er; [|apply nth_error_None in Er; lia]. rewrite !(nth_error_nth _ _ _ (map_nth_error _ _ _ Er)). rewrite Forall_forall in Fg.
      apply arow_translation; auto; [apply act_point; auto|]. apply Fg. eapply nth_error_In; eauto. }
    rewrite T, <- (act_times q24 n) by auto. rewrite R by auto. rewrite plus_whole. reflexivity.
  Qed.
  Lemma mem_word p f : word n gens p -> mem n V f -> mem n V (fun x => act q24 p (f x)).
  Proof.
    intros W M. induction W as [|g p Hg W IH].
    - apply (mem_ext f); auto. intros x Hx. rewrite one_ok; auto. apply mem_point; auto.
    - pose proof (gens_shape g Hg) as Sg. pose proof (word_shape p W) as Sp. destruct (reduce_ok n (times n g p) (times_shape n g p Sg Sp)) as (z0 & R).
      apply (mem_ext (fun x => shifted n (zneg n z0) (act q24 g (act q24 p (f x))))); [|apply mem_shift, mem_gen; auto].
      intros x Hx. pose proof (mem_point f x M Hx) as Hf. unfold shifted. rewrite <- (act_times q24 n) by auto. rewrite R by auto. apply plus_neg. apply act_point. apply reduce_shape, times_shape; auto.
  Qed.
  Lemma mem_comp f g : mem n V f -> mem n V g -> mem n V (fun x => f (g x)).
  Proof.
    intros (v & z & Hv & H) M. apply (mem_ext (fun x => shifted n z (act q24 v (g x)))); [|apply mem_shift, mem_word; auto]. intros x Hx. rewrite H; auto. apply mem_point; auto.
  Qed.
  Lemma mem_shifted z : mem n V (shifted n z).
  Proof. apply (mem_shift (fun x => x) z). apply mem_one. Qed.
  Lemma left_word p : word n gens p -> exists h, mem n V h /\ forall x, point n x -> h (act q24 p x) = x.
  Proof.
    induction 1 as [|g p Hg W (hp & Mp & Hp)].
    - exists (fun x => x). split; [apply mem_one|]. intros. apply one_ok. auto.
    - pose proof (gens_shape g Hg) as Sg. pose proof (word_shape p W) as Sp. destruct (reduce_ok n (times n g p) (times_shape n g p Sg Sp)) as (z0 & R).
      destruct (gens_inverse g Hg) as (q & Wq & Eq). pose proof (word_shape q Wq) as Sq. destruct (reduce_ok n (times n q g) (times_shape n q g Sq Sg)) as (z1 & R1).
      exists (fun y => hp (shifted n (zneg n z1) (act q24 q (shifted n z0 y)))). split.
      + apply mem_comp; auto. apply mem_shift. apply mem_word; auto. apply mem_shifted.
      + intros x Hx. pose proof (act_point q24 n p x Sp) as Px. unfold shifted at 2. fold (product n g p) in R. rewrite <- R by auto. rewrite (act_times q24 n) by auto.
        rewrite <- (act_times q24 n q g) by auto. rewrite R1 by auto. fold (product n q g). rewrite Eq, one_ok by auto. unfold shifted. rewrite plus_neg by auto. auto.
  Qed.
  Lemma mem_left f : mem n V f -> exists h, mem n V h /\ forall x, point n x -> h (f x) = x.
  Proof.
    intros (v & z & Hv & H). destruct (left_word v (V_words v Hv)) as (h & M & L). exists (fun y => h (shifted n (zneg n z) y)). split; [apply mem_comp; auto; apply mem_shifted|].
    intros x Hx. rewrite H by auto. unfold shifted. rewrite plus_neg; auto. apply act_point. apply word_shape; auto.
  Qed.
  Lemma mem_inverse f : mem n V f -> exists h, mem n V h /\ undoes n f h.
  Proof.
    intros M. destruct (mem_left f M) as (h & Mh & Hh). exists h. split; auto. destruct (mem_left h Mh) as (k & Mk & Hk). intros x Hx. split; auto.
    assert (P1 : point n (h x)) by (apply mem_point; auto). assert (P2 : point n (f (h x))) by (apply mem_point; auto).
    rewrite <- (Hk (f (h x)) P2), (Hh (h x) P1). auto.
  Qed.
End Group.

(** ** integer translations are combinations of the unit translations *)
Lemma shifted_point n z x : point n (shifted n z x).
Proof. apply plus_point. Qed.
Lemma shifted_shifted n z w x : shifted n w (shifted n z x) = shifted n (zsum n z w) x.
Proof. apply plus_whole. Qed.
Definition zeros_after (k : nat) (z : list Z) (n : nat) : list Z := map (fun i => if i <? k then nth i z 0%Z else 0%Z) (seq 0 n).
Lemma whole_ext n z w : (forall i, i < n -> nth i z 0%Z = nth i w 0%Z) -> whole n z = whole n w.
Proof. intros H. unfold whole, from_coordinates. apply map_ext_in. intros i Hi. apply in_seq in Hi. rewrite H; auto. lia. Qed.
Lemma translations_generated n (Good : list Z -> Prop) : (forall z w, whole n z = whole n w -> Good z -> Good w) -> Good [] ->
  (forall z w, Good z -> Good w -> Good (zsum n z w)) -> (forall z, Good z -> Good (zneg n z)) -> (forall k, k < n -> Good (unit_vector n k)) -> forall z, Good z.
Proof.
  intros Ext G0 Gadd Gneg Gunit z.
  assert (Gn : forall k, k < n -> forall m : nat, Good (map (fun i => if Nat.eqb i k then Z.of_nat m else 0%Z) (seq 0 n))).
  { intros k Hk. induction m as [|m IH].
    - eapply Ext; [|exact G0]. apply whole_ext. intros i Hi. rewrite nth_seq_map by auto. destruct (Nat.eqb i k); destruct i; reflexivity.
    - eapply Ext; [|apply (Gadd _ _ IH (Gunit k Hk))]. apply whole_ext. intros i Hi. unfold zsum, unit_vector. rewrite !nth_seq_map by auto. destruct (Nat.eqb i k); lia. }
  assert (Gz : forall k, k < n -> forall m : Z, Good (map (fun i => if Nat.eqb i k then m else 0%Z) (seq 0 n))).
  { intros k Hk m. destruct (Z_le_gt_dec 0 m) as [P|P].
    - rewrite <- (Z2Nat.id m P). apply Gn; auto.
    - eapply Ext; [|apply Gneg, (Gn k Hk (Z.to_nat (- m)))]. apply whole_ext. intros i Hi. unfold zneg. rewrite !nth_seq_map by auto. destruct (Nat.eqb i k); [rewrite Z2Nat.id by lia|]; lia. }
  assert (Gk : forall k, k <= n -> Good (zeros_after k z n)).
  { induction k as [|k IH]; intros Hk.
    - eapply Ext; [|exact G0]. apply whole_ext. intros i Hi. unfold zeros_after. rewrite nth_seq_map by auto. destruct i; reflexivity.
    - eapply Ext; [|apply (Gadd _ _ (IH ltac:(lia)) (Gz k ltac:(lia) (nth k z 0%Z)))]. apply whole_ext. intros i Hi. unfold zsum, zeros_after. rewrite !nth_seq_map by auto.
      destruct (Nat.ltb_spec i (S k)), (Nat.ltb_spec i k), (Nat.eqb_spec i k) as [Ek|N]; try rewrite Ek; lia. }
  eapply Ext; [|apply (Gk n); auto]. apply whole_ext. intros i Hi. unfold zeros_after. rewrite nth_seq_map by auto. destruct (Nat.ltb_spec i n); auto; lia.
Qed.

(** ** a group in other coordinates *)
Section Change.
  Variables (n : nat) (gens1 V1 gens2 V2 : list iop) (t u : list Qc -> list Qc).
  Hypothesis shape1 : forall g, In g gens1 -> shape n g.
  Hypothesis words1 : forall p, In p V1 -> word n gens1 p.
  Hypothesis shape2 : forall g, In g gens2 -> shape n g.
  Hypothesis words2 : forall p, In p V2 -> word n gens2 p.
  Hypothesis closed2 : forall p g, In p V2 -> In g gens2 -> In (product n g p) V2.
  Hypothesis one2 : In (one n) V2.
  Hypothesis inverse2 : forall g, In g gens2 -> exists q, word n gens2 q /\ product n q g = one n.
  Hypothesis t_point : forall x, point n x -> point n (t x).
  Hypothesis u_point : forall x, point n x -> point n (u x).
  Hypothesis tu : forall x, point n x -> t (u x) = x.
  Hypothesis ut : forall x, point n x -> u (t x) = x.
  Hypothesis unit_ok : forall k, k < n -> mem n V2 (fun x => t (shifted n (unit_vector n k) (u x))).
  Hypothesis gens_ok : forall g, In g gens1 -> mem n V2 (fun x => t (act q24 g (u x))).

  Lemma translation_changes : forall z, mem n V2 (fun x => t (shifted n z (u x))).
  Proof.
    apply (translations_generated n (fun z => mem n V2 (fun x => t (shifted n z (u x))))).
    - intros z w E M. eapply mem_ext; [|exact M]. intros x Hx. unfold shifted. rewrite E. reflexivity.
    - eapply mem_ext; [|eapply mem_one; eauto]. intros x Hx. unfold shifted. rewrite plus_zero by auto. symmetry. apply tu. auto.
    - intros z w Mz Mw. eapply mem_ext; [|exact (mem_comp n gens2 V2 shape2 words2 closed2 _ _ Mw Mz)]. intros x Hx. cbn beta. rewrite ut by apply shifted_point. rewrite shifted_shifted. reflexivity.
    - intros z Mz. destruct (mem_inverse n gens2 V2 shape2 words2 closed2 one2 inverse2 _ Mz) as (h & Mh & Hh). eapply mem_ext; [|exact Mh]. intros x Hx.
      assert (Pn : point n (t (shifted n (zneg n z) (u x)))) by (apply t_point, shifted_point). destruct (Hh _ Pn) as [_ E2]. cbn beta in E2. rewrite ut in E2 by apply shifted_point. rewrite <- E2 at 1. f_equal.
      unfold shifted. rewrite <- (tu x Hx) at 1. f_equal.
      apply (point_ext n); [apply u_point; auto|apply plus_point|]. intros i Hi. rewrite !plus_nth, !whole_nth by auto. unfold zneg. rewrite nth_seq_map by auto. rewrite ZQ_opp. ring.
    - intros k Hk. apply unit_ok. auto.
  Qed.
  Lemma word_changes p : word n gens1 p -> mem n V2 (fun x => t (act q24 p (u x))).
  Proof.
    induction 1 as [|g p Hg W IH].
    - eapply mem_ext; [|eapply mem_one; eauto]. intros x Hx. rewrite one_ok by auto. rewrite tu; auto.
    - pose proof (shape1 g Hg) as Sg. pose proof (word_shape n gens1 shape1 p W) as Sp.
      destruct (reduce_ok n (times n g p) (times_shape n g p Sg Sp)) as (z0 & R).
      eapply mem_ext; [|apply (mem_comp n gens2 V2 shape2 words2 closed2 _ _ (translation_changes (zneg n z0)) (mem_comp n gens2 V2 shape2 words2 closed2 _ _ (gens_ok g Hg) IH))].
      intros x Hx. cbn beta. rewrite (ut (act q24 p (u x))) by (apply act_point; auto). rewrite ut by (apply act_point; auto). f_equal.
      rewrite <- (act_times q24 n) by (auto; apply u_point; auto). rewrite R by auto. unfold shifted. apply plus_neg. apply act_point. apply reduce_shape, times_shape; auto.
  Qed.
  Lemma mem_changes f : mem n V1 f -> mem n V2 (fun x => t (f (u x))).
  Proof.
    intros (v & z & Hv & H). eapply mem_ext; [|apply (mem_comp n gens2 V2 shape2 words2 closed2 _ _ (translation_changes z) (word_changes v (words1 v Hv)))].
    intros x Hx. cbn beta. pose proof (word_shape n gens1 shape1 v (words1 v Hv)) as Sv. rewrite ut by (apply act_point; auto). rewrite H by auto. reflexivity.
  Qed.
End Change.

(** ** different rows are different maps *)
Lemma row_determined : forall n r s z, length r = S n -> length s = S n -> (forall x, point n x -> arow q24 r x = (arow q24 s x + ZQ z)%Qc) -> modlast r = modlast s.
Proof.
  induction n as [|n IH]; intros r s z Lr Ls H.
  - destruct r as [|c [|]]; try discriminate. destruct s as [|d [|]]; try discriminate. specialize (H [] eq_refl). cbn [arow] in H. cbn [modlast]. f_equal.
    assert (E : (ZQ c = ZQ d + ZQ z * ZQ 24)%Qc).
    { pose proof q24_ok as Q. transitivity (ZQ c * (ZQ 24 * q24))%Qc; [rewrite Q; ring|]. transitivity (ZQ 24 * (ZQ c * q24))%Qc; [ring|]. rewrite H. transitivity (ZQ d * (ZQ 24 * q24) + ZQ z * ZQ 24)%Qc; [ring|]. rewrite Q. ring. }
    rewrite <- ZQ_mul, <- ZQ_add in E. apply ZQ_inj in E. rewrite E. apply Z.mod_add. lia.
  - destruct r as [|c r]; try discriminate. destruct s as [|d s]; try discriminate. injection Lr as Lr. injection Ls as Ls.
    assert (H0 : forall x, point n x -> arow q24 r x = (arow q24 s x + ZQ z)%Qc).
    { intros x Hx. specialize (H (0%Qc :: x)). cbn [arow] in H. assert (P : point (S n) (0%Qc :: x)) by (unfold point in *; cbn; lia). specialize (H P).
      transitivity (ZQ c * 0 + arow q24 r x)%Qc; [ring|]. rewrite H. ring. }
    assert (E : c = d).
    { pose proof (H0 (repeat 0%Qc n) (repeat_length _ _)) as H1. specialize (H (1%Qc :: repeat 0%Qc n)). assert (P : point (S n) (1%Qc :: repeat 0%Qc n)) by (unfold point; cbn; rewrite repeat_length; auto).
      specialize (H P). cbn [arow] in H. rewrite H1 in H. apply ZQ_inj. transitivity (ZQ c * 1 + (arow q24 s (repeat 0%Qc n) + ZQ z) - (arow q24 s (repeat 0%Qc n) + ZQ z))%Qc; [ring|]. rewrite H. ring. }
    subst d. destruct r as [|c' r]; try discriminate. destruct s as [|d' s]; try discriminate. change (c :: modlast (c' :: r) = c :: modlast (d' :: s)). f_equal. eapply IH; eauto.
Qed.
Lemma rows_determined n p q z : shape n p -> shape n q -> (forall x, point n x -> act q24 p x = plus n (act q24 q x) (whole n z)) -> reduce p = reduce q.
Proof.
  intros [Lp Fp] [Lq Fq] H. unfold reduce. apply nth_ext with (d := []) (d' := []); rewrite !map_length; [congruence|]. intros i Hi.
  destruct (nth_error p i) as [r|] eqn:Er; [|apply nth_error_None in Er; lia]. destruct (nth_error q i) as [s|] eqn:Es; [|apply nth_error_None in Es; lia].
  rewrite (nth_error_nth _ _ _ (map_nth_error modlast _ _ Er)), (nth_error_nth _ _ _ (map_nth_error modlast _ _ Es)). rewrite Forall_forall in Fp, Fq.
  apply (row_determined n r s (nth i z 0%Z)); [apply Fp; eapply nth_error_In; eauto|apply Fq; eapply nth_error_In; eauto|]. intros x Hx. specialize (H x Hx). apply (f_equal (fun l => nth i l 0%Qc)) in H.
  rewrite plus_nth, whole_nth in H by lia. unfold act in H. rewrite (nth_error_nth _ _ _ (map_nth_error (fun r => arow q24 r x) _ _ Er)), (nth_error_nth _ _ _ (map_nth_error (fun r => arow q24 r x) _ _ Es)) in H. auto.
Qed.

(** ** the checker *)
Fixpoint inverse_power (fuel n : nat) (g p : iop) : bool :=
  if rows_eqb (product n p g) (one n) then true else match fuel with 0 => false | S f => inverse_power f n g (product n g p) end.
Lemma inverse_power_ok n gens g : In g gens -> forall fuel p, word n gens p -> inverse_power fuel n g p = true -> exists q, word n gens q /\ product n q g = one n.
Proof.
  intros Hg. induction fuel as [|f IH]; intros p W; cbn [inverse_power]; destruct (rows_eqb (product n p g) (one n)) eqn:E; try discriminate; intros H; try (exists p; split; auto; apply rows_eqb_ok; exact E).
  apply (IH (product n g p)); auto. constructor; auto.
Qed.
Record info := Info { i_rows : list iop; i_map : map_t; i_gens : list iop }.
Definition group_info (n : nat) (ops : list (@affine Qc)) (hint : list nat) : option info :=
  match all_some (map (rows_of n 1 24) ops) with
  | None => None
  | Some ps =>
    let rs := map reduce ps in
    match build rs with
    | None => None
    | Some m =>
      let gens := map (fun i => nth i rs []) hint in
      match search (S (length rs)) n gens [one n] (PositiveMap.add (key (one n)) (one n) (PositiveMap.empty iop)) [] with
      | None => None
      | Some (V, seen) =>
        if forallb (fun p => found p seen) rs && forallb (fun p => found p m) V && forallb (fun g => found g m) gens && forallb (fun g => inverse_power 24 n g (one n)) gens
        then Some (Info rs m gens) else None
      end
    end
  end.
Record info_ok (n : nat) (ops : list (@affine Qc)) (i : info) : Prop := {
  ok_rows : exists ps, all_some (map (rows_of n 1 24) ops) = Some ps /\ i_rows i = map reduce ps;
  ok_nodup : NoDup (i_rows i);
  ok_map : covers (i_map i) (i_rows i);
  ok_shape : forall g, In g (i_gens i) -> shape n g;
  ok_words : forall p, In p (i_rows i) -> word n (i_gens i) p;
  ok_closed : forall p g, In p (i_rows i) -> In g (i_gens i) -> In (product n g p) (i_rows i);
  ok_one : In (one n) (i_rows i);
  ok_inverse : forall g, In g (i_gens i) -> exists q, word n (i_gens i) q /\ product n q g = one n }.
Lemma rows_shape n ops ps : all_some (map (rows_of n 1 24) ops) = Some ps -> forall p, In p ps -> exists op, In op ops /\ rows_of n 1 24 op = Some p.
Proof. intros H p Hp. apply all_some_ok in H. apply (in_map Some) in Hp. rewrite <- H in Hp. apply in_map_iff in Hp as (op & E & Ho). eauto. Qed.
Lemma group_info_ok n ops hint i : group_info n ops hint = Some i -> info_ok n ops i.
Proof.
  unfold group_info. destruct (all_some (map (rows_of n 1 24) ops)) as [ps|] eqn:Ep; [|discriminate]. cbn zeta. destruct (build (map reduce ps)) as [m|] eqn:Em; [|discriminate].
  set (rs := map reduce ps) in *. set (gens := map (fun i => nth i rs []) hint) in *. destruct (search _ n gens _ _ _) as [[V seen]|] eqn:Es; [|discriminate].
  destruct (forallb (fun p => found p seen) rs && forallb (fun p => found p m) V && forallb (fun g => found g m) gens && forallb (fun g => inverse_power 24 n g (one n)) gens) eqn:B; [|discriminate].
  intros [= <-]. apply andb_prop in B as [B B4]. apply andb_prop in B as [B B3]. apply andb_prop in B as [B1 B2]. rewrite forallb_forall in B1, B2, B3, B4. apply build_ok in Em as [Cm Nd].
  assert (S : covers seen V /\ incl ([one n] ++ []) V /\ (forall p, In p V -> word n gens p) /\ (forall p g, In p V -> In g gens -> In (product n g p) V)).
  { eapply search_ok; [exact Es| | |].
    - apply covers_add. apply covers_empty.
    - intros p [<-|[]]. constructor.
    - intros p g []. }
  destruct S as (Cs & I & W & P).
  assert (RV : forall p, In p rs -> In p V) by (intros p Hp; eapply found_in; eauto). assert (VR : forall p, In p V -> In p rs) by (intros p Hp; eapply found_in; eauto).
  split; cbn [i_rows i_map i_gens]; auto.
  - exists ps. auto.
  - intros g Hg. apply B3 in Hg. apply (found_in _ _ _ Cm) in Hg. unfold rs in Hg. apply in_map_iff in Hg as (p & <- & Hp). apply (rows_shape n ops ps Ep) in Hp as (op & _ & E). apply reduce_shape. eapply op_rows; eauto.
  - apply VR, I. left. auto.
  - intros g Hg. eapply inverse_power_ok; [exact Hg|apply word_one|]. apply B4. auto.
Qed.
Lemma in_group_mem n ops i f : info_ok n ops i -> in_group n ops f <-> mem n (i_rows i) f.
Proof.
  intros [[ps [Ep Er]] _ _ _ _ _ _ _]. rewrite Er. split.
  - intros (op & z & Ho & H). apply all_some_ok in Ep. assert (Hs : In (rows_of n 1 24 op) (map Some ps)) by (rewrite <- Ep; apply in_map; auto). apply in_map_iff in Hs as (p & E & Hp). symmetry in E. apply op_rows in E as [Sp A].
    destruct (reduce_ok n p Sp) as (z0 & R). exists (reduce p), (zsum n z0 z). split; [apply in_map; auto|]. intros x Hx. rewrite H by auto. rewrite <- A by auto. rewrite R by auto. apply plus_whole.
  - intros (v & z & Hv & H). apply in_map_iff in Hv as (p & <- & Hp). apply (rows_shape n ops ps Ep) in Hp as (op & Ho & E). apply op_rows in E as [Sp A].
    destruct (reduce_ok n p Sp) as (z0 & R). exists op, (zsum n (zneg n z0) z). split; auto. intros x Hx. rewrite H by auto. rewrite <- A by auto. rewrite R by auto. rewrite <- plus_whole, plus_neg; auto. apply act_point, reduce_shape; auto.
Qed.
Theorem checked_space_group n ops i : info_ok n ops i -> space_group n ops.
Proof.
  intros O. pose proof O as [[ps [Ep Er]] Nd Cm Sg W P O1 Iv]. split.
  - apply Forall_forall. intros op Ho. apply all_some_ok in Ep. assert (Hs : In (rows_of n 1 24 op) (map Some ps)) by (rewrite <- Ep; apply in_map; auto). apply in_map_iff in Hs as (p & E & Hp). symmetry in E. eapply rows_integral; eauto.
  - apply (in_group_mem n ops i _ O). apply mem_one; auto.
  - intros f g Hf Hg. apply (in_group_mem n ops i _ O) in Hf. apply (in_group_mem n ops i _ O) in Hg. apply (in_group_mem n ops i _ O). eapply mem_comp; eauto.
  - intros f Hf. apply (in_group_mem n ops i _ O) in Hf. destruct (mem_inverse n (i_gens i) (i_rows i) Sg W P O1 Iv f Hf) as (h & M & U). exists h. split; auto. apply (in_group_mem n ops i _ O). auto.
  - intros j k a b Hjk Ea Eb (z & H). apply all_some_ok in Ep.
    assert (Ga : forall m op, nth_error ops m = Some op -> exists p, nth_error ps m = Some p /\ rows_of n 1 24 op = Some p).
    { intros m op E. apply (map_nth_error (rows_of n 1 24)) in E. rewrite Ep in E. rewrite nth_error_map in E. destruct (nth_error ps m) as [p|]; [|discriminate]. cbn in E. exists p. split; auto. congruence. }
    destruct (Ga j a Ea) as (p & Ep1 & Rp). destruct (Ga k b Eb) as (q & Eq1 & Rq). destruct (op_rows _ _ _ Rp) as [Sp Ap]. destruct (op_rows _ _ _ Rq) as [Sq Aq].
    assert (E : reduce p = reduce q). { apply (rows_determined n p q z Sp Sq). intros x Hx. rewrite Ap, Aq by auto. auto. }
    rewrite Er in Nd. apply (map_nth_error reduce) in Ep1. apply (map_nth_error reduce) in Eq1. rewrite E in Ep1. rewrite NoDup_nth_error in Nd.
    assert (j = k); [|lia]. apply Nd; [apply nth_error_Some; congruence|congruence].
Qed.
(** the map t after g after u, as rows; t is given by rows with the denominators 24 and 576, u by rows with the denominators 24 and 24 *)
Definition changed (n : nat) (t g u : iop) : option iop := divided (times n t (times n g u)).
Lemma q1 : (ZQ 24 * 1 = ZQ 24)%Qc. Proof. ring. Qed.
Lemma changed_ok n a b t u g q : rows_of n 24 576 a = Some t -> rows_of n 24 24 b = Some u -> shape n g -> changed n t g u = Some q ->
  shape n q /\ forall x, point n x -> act q24 q x = moved n a (act q24 g (moved n b x)).
Proof.
  intros Ha Hb Sg H. apply rows_ok in Ha as [St At]. apply rows_ok in Hb as [Su Au]. unfold changed in H.
  assert (S1 : shape n (times n g u)) by (apply times_shape; auto). assert (S2 : shape n (times n t (times n g u))) by (apply times_shape; auto).
  destruct (divided_ok n _ _ S2 H) as [Sq Aq]. split; auto. intros x Hx. specialize (Aq x Hx). rewrite !(act_times 1%Qc n) in Aq by (auto; apply act_point; auto). rewrite (Au 1%Qc x q1 Hx) in Aq.
  assert (E24 : 1%Qc = (ZQ 24 * q24)%Qc) by (rewrite q24_ok; auto). rewrite E24 in Aq. rewrite act_homogeneous in Aq.
  assert (Pg : point n (act q24 g (moved n b x))) by (apply act_point; auto). rewrite act_homogeneous in Aq. rewrite (At q24 _ q576 Pg) in Aq. rewrite map_map in Aq.
  apply (point_ext n); [apply act_point; auto|unfold point, moved, from_coordinates; rewrite map_length, seq_length; auto|]. intros i Hi.
  apply (f_equal (fun l => nth i l 0%Qc)) in Aq.
  assert (Mn : forall (f : Qc -> Qc) l, length l = n -> nth i (map f l) 0%Qc = f (nth i l 0%Qc)) by (intros f l Ll; rewrite nth_indep with (d' := f 0%Qc) by (rewrite map_length; lia); apply map_nth).
  rewrite !Mn in Aq; [|apply act_point; auto|unfold moved, from_coordinates; rewrite map_length, seq_length; auto].
  assert (N : ZQ 576 <> 0%Qc) by (intros X; apply (f_equal (fun q : Qc => Qnum (this q))) in X; vm_compute in X; discriminate).
  assert (E576 : ZQ 576 = (ZQ 24 * ZQ 24)%Qc) by (rewrite <- ZQ_mul; reflexivity).
  assert (E : (ZQ 576 * nth i (act q24 q x) 0 = ZQ 576 * nth i (moved n a (act q24 g (moved n b x))) 0)%Qc) by (rewrite <- Aq; rewrite E576; ring).
  apply (f_equal (fun v => (v / ZQ 576)%Qc)) in E. revert E. generalize (nth i (act q24 q x) 0%Qc), (nth i (moved n a (act q24 g (moved n b x))) 0%Qc). intros v w E.
  transitivity (ZQ 576 * v / ZQ 576)%Qc; [field; auto|]. rewrite E. field; auto.
Qed.
Definition change_found (n : nat) (t u : iop) (m : map_t) (g : iop) : bool := match changed n t g u with Some q => found (reduce q) m | None => false end.
Definition change_one (n : nat) (t u : iop) : bool := match changed n t (one n) u with Some q => rows_eqb q (one n) | None => false end.
(** the first group becomes the second one under the coordinate change a; b is its inverse *)
Definition change_check (n : nat) (a b : @affine Qc) (i1 i2 : info) : bool :=
  match rows_of n 24 576 a, rows_of n 24 24 a, rows_of n 24 576 b, rows_of n 24 24 b with
  | Some ta, Some ua, Some tb, Some ub =>
    change_one n ta ub && change_one n tb ua &&
    forallb (change_found n ta ub (i_map i2)) (map (unit_translation n) (seq 0 n) ++ i_gens i1) &&
    forallb (change_found n tb ua (i_map i1)) (map (unit_translation n) (seq 0 n) ++ i_gens i2)
  | _, _, _, _ => false
  end.
Lemma moved_point n a x : point n (moved n a x).
Proof. unfold point, moved, from_coordinates. rewrite map_length, seq_length. auto. Qed.
Lemma change_one_ok n a b t u : rows_of n 24 576 a = Some t -> rows_of n 24 24 b = Some u -> change_one n t u = true -> forall x, point n x -> moved n a (moved n b x) = x.
Proof.
  intros Ha Hb H x Hx. unfold change_one in H. destruct (changed n t (one n) u) as [q|] eqn:E; [|discriminate]. apply rows_eqb_ok in H. subst q.
  destruct (changed_ok n a b t u (one n) (one n) Ha Hb (one_shape n) E) as [_ A]. specialize (A x Hx). rewrite !one_ok in A by (auto; apply moved_point). auto.
Qed.
Lemma change_found_ok n a b t u ops i g : rows_of n 24 576 a = Some t -> rows_of n 24 24 b = Some u -> info_ok n ops i -> shape n g -> change_found n t u (i_map i) g = true ->
  mem n (i_rows i) (fun x => moved n a (act q24 g (moved n b x))).
Proof.
  intros Ha Hb O Sg H. unfold change_found in H. destruct (changed n t g u) as [q|] eqn:E; [|discriminate]. destruct (changed_ok n a b t u g q Ha Hb Sg E) as [Sq A].
  apply (found_in _ _ _ (ok_map _ _ _ O)) in H. destruct (reduce_ok n q Sq) as (z & R). exists (reduce q), z. split; auto. intros x Hx. rewrite <- A by auto. auto.
Qed.
Lemma change_half n a b t u ops1 ops2 i1 i2 : info_ok n ops1 i1 -> info_ok n ops2 i2 -> rows_of n 24 576 a = Some t -> rows_of n 24 24 b = Some u ->
  (forall x, point n x -> moved n a (moved n b x) = x) -> (forall x, point n x -> moved n b (moved n a x) = x) ->
  forallb (change_found n t u (i_map i2)) (map (unit_translation n) (seq 0 n) ++ i_gens i1) = true ->
  forall f, in_group n ops1 f -> in_group n ops2 (fun x => moved n a (f (moved n b x))).
Proof.
  intros O1 O2 Ha Hb H1 H2 F f Hf. rewrite forallb_forall in F. apply (in_group_mem n ops1 i1 _ O1) in Hf. apply (in_group_mem n ops2 i2 _ O2).
  apply (mem_changes n (i_gens i1) (i_rows i1) (i_gens i2) (i_rows i2) (moved n a) (moved n b)); auto; try apply O1; try apply O2; intros; try apply moved_point.
  - eapply mem_ext; [|eapply (change_found_ok n a b t u ops2 i2 (unit_translation n k)); eauto].
    + intros x Hx. cbn beta. rewrite unit_translation_ok by apply moved_point. reflexivity.
    + apply unit_translation_shape.
    + apply F. apply in_or_app. left. apply in_map. apply in_seq. lia.
  - eapply change_found_ok; eauto; [apply O1; auto|]. apply F. apply in_or_app. right. auto.
Qed.
Theorem checked_same_group n a b ops1 ops2 i1 i2 : info_ok n ops1 i1 -> info_ok n ops2 i2 -> change_check n a b i1 i2 = true -> same_group n (moved n a) (moved n b) ops1 ops2.
Proof.
  intros O1 O2 H. unfold change_check in H. destruct (rows_of n 24 576 a) as [ta|] eqn:E1; [|discriminate]. destruct (rows_of n 24 24 a) as [ua|] eqn:E2; [|discriminate].
  destruct (rows_of n 24 576 b) as [tb|] eqn:E3; [|discriminate]. destruct (rows_of n 24 24 b) as [ub|] eqn:E4; [|discriminate].
  apply andb_prop in H as [H H4]. apply andb_prop in H as [H H3]. apply andb_prop in H as [H1 H2].
  pose proof (change_one_ok n a b ta ub E1 E4 H1) as AB. pose proof (change_one_ok n b a tb ua E3 E2 H2) as BA. split; [|split].
  - intros x Hx. auto.
  - eapply change_half; eauto.
  - eapply change_half; eauto.
Qed.
