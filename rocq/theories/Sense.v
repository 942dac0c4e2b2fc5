(** Proofs about OperatorDetails (finder.rs): orthogonal and collinear vectors, the sense of rotation, all of OperatorDetails::from. *)
From Coq Require Import String Ascii List ZArith NArith Lia Bool PeanoNat QArith Qcanon.
From Verif Require Import Base QcTac Vec Elim Scalars Matrix MatrixMore LinAlg ZQ Lattices Reduce Geometry Generate Group Crystal Rotation Finder Details.
From Verif Require Props_LinAlg Props_Geometry Placed.
Import ListNotations.
Close Scope Q_scope. Close Scope Qc_scope.
Local Open Scope list_scope.
Open Scope nat_scope.

Lemma Qcmult_cancel (x a b : Qc) : x <> 0%Qc -> (x * a)%Qc = (x * b)%Qc -> a = b.
Proof. intros N H. apply Qc_sub_eq. assert (Z : (x * (a - b))%Qc = 0%Qc) by (transitivity (x * a - x * b)%Qc; [ring|rewrite H; ring]). destruct (Qcmult_integral _ _ Z); auto. contradiction. Qed.

Lemma same_sign (a b : Qc) : (0 < a * b)%Qc -> ((a < 0)%Qc -> (b < 0)%Qc) /\ (~ (a < 0)%Qc -> (0 < b)%Qc).
Proof.
  intros H. split; intros G.
  - destruct (Qclt_le_dec b 0%Qc) as [|C]; auto. exfalso. revert H G C. clear. intros. assert ((a * b <= 0)%Qc) by qcnra. qclra.
  - assert (G' : (0 <= a)%Qc) by (apply Qcnot_lt_le; auto). destruct (Qclt_le_dec 0%Qc b) as [|C]; auto. exfalso. revert H G' C. clear. intros. assert ((a * b <= 0)%Qc) by qcnra. qclra.
Qed.

(** ** dot *)
Lemma fdot_acc v w s : fold_left (fun s p => (s + fst p * snd p)%Qc) (combine v w) s = (s + fdot v w)%Qc.
Proof.
  unfold fdot. revert w s. induction v as [|x v IH]; intros [|y w] s; cbn [combine fold_left]; try ring.
  rewrite IH. rewrite (IH w (0 + fst (x, y) * snd (x, y))%Qc). cbn [fst snd]. ring.
Qed.
Lemma fdot_cons x v y w : fdot (x :: v) (y :: w) = (x * y + fdot v w)%Qc.
Proof. unfold fdot at 1. cbn [combine fold_left fst snd]. rewrite fdot_acc. ring. Qed.
Lemma fdot_nil : fdot [] [] = 0%Qc. Proof. reflexivity. Qed.
Lemma list2_ind {A B} (P : list A -> list B -> Prop) : P [] [] -> (forall a b l m, length l = length m -> P l m -> P (a :: l) (b :: m)) -> forall l m, length l = length m -> P l m.
Proof. intros H0 H1. induction l as [|a l IH]; intros [|b m] E; cbn in E; try discriminate; auto. Qed.
Lemma fdot_comm v w : length v = length w -> fdot v w = fdot w v.
Proof. revert v w. apply list2_ind; auto. intros a b l m E H. rewrite !fdot_cons, H. ring. Qed.
Lemma fdot_self v : (0 <= fdot v v)%Qc /\ (fdot v v = 0%Qc -> forall i, vget v i = 0%Qc).
Proof.
  induction v as [|x v [IH1 IH2]]; [split; [rewrite fdot_nil; apply Qcle_refl|intros _ [|i]; reflexivity]|]. rewrite fdot_cons.
  assert (P : (0 <= x * x)%Qc) by qcnra. split; [qclra|]. intros Z. assert (Z1 : (x * x)%Qc = 0%Qc) by qclra. assert (Z2 : fdot v v = 0%Qc) by qclra.
  intros [|i]; [cbn; destruct (Qcmult_integral _ _ Z1); auto|]. apply (IH2 Z2).
Qed.
(** x v + y w *)
Definition lcomb (x : Qc) (v : list Qc) (y : Qc) (w : list Qc) : list Qc := map (fun p => (x * fst p + y * snd p)%Qc) (combine v w).
Lemma lcomb_get x v y w : length v = length w -> forall i, vget (lcomb x v y w) i = (x * vget v i + y * vget w i)%Qc.
Proof. revert v w. apply (list2_ind (fun v w => forall i, vget (lcomb x v y w) i = (x * vget v i + y * vget w i)%Qc)); [intros [|i]; cbn; ring|]. intros a b l m E H [|i]; [reflexivity|]. apply H. Qed.
Lemma lcomb_norm x v y w : length v = length w -> fdot (lcomb x v y w) (lcomb x v y w) = (x * x * fdot v v + (1 + 1) * (x * y) * fdot v w + y * y * fdot w w)%Qc.
Proof.
  revert v w. apply list2_ind; [unfold fdot, lcomb; cbn [combine map fold_left]; ring|]. intros a b l m E H. unfold lcomb in *. cbn [combine map]. rewrite !fdot_cons, H. cbn [fst snd]. ring.
Qed.
Definition dependent (v w : list Qc) : Prop := exists x y, ~ (x = 0%Qc /\ y = 0%Qc) /\ forall i, (x * vget v i + y * vget w i)%Qc = 0%Qc.
Lemma fdot_scaled_l x v w : fdot (map (Qcmult x) v) w = (x * fdot v w)%Qc.
Proof. revert w. induction v as [|a v IH]; intros [|b w]; cbn [map]; try (unfold fdot; cbn; ring). rewrite !fdot_cons, IH. ring. Qed.
Lemma fdot_scaled_r x v w : fdot v (map (Qcmult x) w) = (x * fdot v w)%Qc.
Proof. revert w. induction v as [|a v IH]; intros [|b w]; cbn [map]; try (unfold fdot; cbn; ring). rewrite !fdot_cons, IH. ring. Qed.
Lemma list_get_eq (v w : list Qc) : length v = length w -> (forall i, vget v i = vget w i) -> v = w.
Proof. intros E H. apply (nth_ext v w 0%Qc 0%Qc E). intros i _. apply H. Qed.
Lemma scaled_cs x v w : length v = length w -> (forall i, vget v i = (x * vget w i)%Qc) -> (fdot v w * fdot v w = fdot v v * fdot w w)%Qc.
Proof.
  intros E H. assert (v = map (Qcmult x) w) as ->.
  { apply list_get_eq; [rewrite map_length; auto|]. intros i. rewrite H. unfold vget. rewrite <- (map_nth (Qcmult x)). f_equal. cbn. ring. }
  rewrite !fdot_scaled_l, !fdot_scaled_r. ring.
Qed.
Lemma collinear_ok v w : length v = length w -> exists b, are_collinear v w = Ret b /\ (b = true <-> dependent v w).
Proof.
  intros E. unfold are_collinear, dot. rewrite E, !Nat.eqb_refl. cbn [assert bind]. eexists. split; [reflexivity|].
  transitivity ((fdot v w * fdot v w)%Qc = (fdot v v * fdot w w)%Qc); [destruct (Qc_eqb_spec (fdot v w * fdot v w)%Qc (fdot v v * fdot w w)%Qc); intuition discriminate|]. split.
  - intros H. destruct (Qc_eq_dec (fdot w w) 0%Qc) as [Z|N].
    + exists 0%Qc, 1%Qc. split; [intros [_ C]; discriminate C|]. intros i. destruct (fdot_self w) as [_ S]. rewrite (S Z). ring.
    + exists (fdot w w), (- fdot v w)%Qc. split; [intros [C _]; auto|]. intros i. rewrite <- lcomb_get by auto. apply fdot_self. rewrite lcomb_norm by auto.
      transitivity (fdot w w * (fdot v v * fdot w w - fdot v w * fdot v w))%Qc; [ring|]. rewrite H. ring.
  - intros (x & y & N & H). destruct (Qc_eq_dec x 0%Qc) as [->|Nx].
    + assert (Ny : y <> 0%Qc) by tauto. assert (C : (fdot w v * fdot w v = fdot w w * fdot v v)%Qc).
      { apply (scaled_cs 0%Qc); auto. intros i. specialize (H i). assert (Z : (y * vget w i)%Qc = 0%Qc) by (rewrite <- H; ring). destruct (Qcmult_integral _ _ Z); [contradiction|]. rewrite H0. ring. }
      rewrite (fdot_comm v w E), C. ring.
    + apply (scaled_cs (- y / x)%Qc); auto. intros i. specialize (H i). assert (X : (x * vget v i)%Qc = (- y * vget w i)%Qc) by (apply Qc_sub_eq; rewrite <- H; ring).
      apply (Qcmult_cancel x); auto. rewrite X. field. auto.
Qed.
Lemma orthogonal_ok v w : length v = length w -> are_orthogonal v w = Ret (Qc_eqb (fdot v w) 0%Qc).
Proof. intros E. unfold are_orthogonal, dot. rewrite E, Nat.eqb_refl. reflexivity. Qed.

(** ** the sense of rotation *)
Definition lv3 (v : list Qc) : v3 := V3 (vget v 0%nat) (vget v 1%nat) (vget v 2%nat).
Lemma list3 (v : list Qc) : length v = 3 -> v = [vget v 0%nat; vget v 1%nat; vget v 2%nat].
Proof. destruct v as [|a [|b [|c [|]]]]; try discriminate. auto. Qed.
Lemma dep_indep v w : length v = 3 -> length w = 3 -> ~ dependent v w <-> indep2 (lv3 v) (lv3 w).
Proof.
  intros Ev Ew. split.
  - intros N x y E. destruct (Qc_eq_dec x 0%Qc) as [->|Nx]; [destruct (Qc_eq_dec y 0%Qc) as [->|Ny]; auto|]; exfalso; apply N.
    + exists 0%Qc, y. split; [tauto|]. intros i. destruct i as [|[|[|i]]]; [exact (f_equal vx E)|exact (f_equal vy E)|exact (f_equal vz E)|]. unfold vget. rewrite !nth_overflow by lia. cbn. ring.
    + exists x, y. split; [tauto|]. intros i. destruct i as [|[|[|i]]]; [exact (f_equal vx E)|exact (f_equal vy E)|exact (f_equal vz E)|]. unfold vget. rewrite !nth_overflow by lia. cbn. ring.
  - intros I (x & y & N & H). apply N. apply I. apply v3_eq; apply H.
Qed.
Lemma u_not_both a : length a = 3 -> (exists i, vget a i <> 0%Qc) -> dependent a [1; 0; 0]%Qc -> ~ dependent a [0; 1; 0]%Qc.
Proof.
  intros La (k & Hk) (x & y & N & H) (x' & y' & N' & H').
  pose proof (H 1) as H1. pose proof (H 2) as H2. pose proof (H' 0) as H0'. cbn in H1, H2, H0'. pose proof (H 0) as H0. pose proof (H' 1) as H1'. cbn in H0, H1'.
  assert (Nx : x <> 0%Qc). { intros ->. apply N. split; auto. transitivity (0 * vget a 0%nat + y * 1)%Qc; [ring|exact H0]. }
  assert (Nx' : x' <> 0%Qc). { intros ->. apply N'. split; auto. transitivity (0 * vget a 1%nat + y' * 1)%Qc; [ring|exact H1']. }
  assert (Z0 : vget a 0%nat = 0%Qc). { assert (Q : (x' * vget a 0%nat)%Qc = 0%Qc) by (rewrite <- H0'; ring). destruct (Qcmult_integral _ _ Q); auto. contradiction. }
  assert (Z1 : vget a 1%nat = 0%Qc). { assert (Q : (x * vget a 1%nat)%Qc = 0%Qc) by (rewrite <- H1; ring). destruct (Qcmult_integral _ _ Q); auto. contradiction. }
  assert (Z2 : vget a 2%nat = 0%Qc). { assert (Q : (x * vget a 2%nat)%Qc = 0%Qc) by (rewrite <- H2; ring). destruct (Qcmult_integral _ _ Q); auto. contradiction. }
  destruct k as [|[|[|k]]]; auto. apply Hk. unfold vget. apply nth_overflow. lia.
Qed.
Lemma turns_ok f a : length a = 3 -> (exists i, vget a i <> 0%Qc) -> exists v, ~ dependent a v /\ length v = 3 /\
  turns_clockwise (mk 3 3 f) a = Ret (negb (q_neg (vol (lv3 a) (lv3 v) (app3 (of3 f) (lv3 v))))).
Proof.
  intros La Na. unfold turns_clockwise. destruct (collinear_ok a [1; 0; 0]%Qc) as (b & E & Hb); [rewrite La; auto|]. cbv zeta. rewrite E. cbn [bind].
  assert (G : forall v, length v = 3 -> (do v0 <- mat_col v; do w <- mat_mul (mk 3 3 f) v0; do x <- mat_col a; do a0 <- hstack [x; v0; w]; do l <- is_left_handed a0; Ret (negb l)) =
    Ret (negb (q_neg (vol (lv3 a) (lv3 v) (app3 (of3 f) (lv3 v)))))).
  { intros v Lv. rewrite (list3 v Lv), (list3 a La). generalize (vget v 0%nat) (vget v 1%nat) (vget v 2%nat) (vget a 0%nat) (vget a 1%nat) (vget a 2%nat). clear. intros v0 v1 v2 a0 a1 a2.
    change (mat_col [v0; v1; v2]) with (Ret (mk 3 1 (fun i _ => match i with 0 => v0 | 1 => v1 | _ => v2 end))). cbn [bind]. rewrite mat_mul_mk by lia. cbn [bind].
    change (mat_col [a0; a1; a2]) with (Ret (Mat 3 1 [a0; a1; a2])). cbn [bind].
    match goal with |- context [hstack [_; _; ?m]] => set (w := m) end.
    set (w0 := (f 0%nat 0%nat * v0 + f 0%nat 1%nat * v1 + f 0%nat 2%nat * v2)%Qc). set (w1 := (f 1%nat 0%nat * v0 + f 1%nat 1%nat * v1 + f 1%nat 2%nat * v2)%Qc). set (w2 := (f 2%nat 0%nat * v0 + f 2%nat 1%nat * v1 + f 2%nat 2%nat * v2)%Qc).
    assert (Ew : w = Mat 3 1 [w0; w1; w2]). { unfold w. transitivity (mk 3 1 (fun i _ => match i with 0 => w0 | 1 => w1 | _ => w2 end)); [|reflexivity]. apply mk_ext. intros i j Hi Hj. rewrite sumf_3. cbn [rmul Qc_dom]. destruct i as [|[|[|i]]]; try lia; reflexivity. }
    rewrite Ew. change (mk 3 1 (fun i _ => match i with 0 => v0 | 1 => v1 | _ => v2 end)) with (Mat 3 1 [v0; v1; v2]).
    change (hstack [Mat 3 1 [a0; a1; a2]; Mat 3 1 [v0; v1; v2]; Mat 3 1 [w0; w1; w2]]) with (Ret (Mat 3 3 [a0; v0; w0; a1; v1; w1; a2; v2; w2])). cbn [bind].
    change (Mat 3 3 [a0; v0; w0; a1; v1; w1; a2; v2; w2]) with (mk 3 3 (fun i j => nth (i * 3 + j) [a0; v0; w0; a1; v1; w1; a2; v2; w2] 0%Qc)).
    unfold is_left_handed. rewrite det_mk by lia. cbn [bind]. reflexivity. }
  destruct b.
  - exists [0; 1; 0]%Qc. splits; auto. apply u_not_both; auto. apply Hb. auto.
  - exists [1; 0; 0]%Qc. splits; auto. intros C. apply Hb in C. discriminate C.
Qed.

(** ** all of OperatorDetails::from *)
Lemma lead_nz d v : lead_pos d v -> exists i, i < d /\ v i <> 0%Qc.
Proof. intros (k & Hk & _ & P). exists k. split; auto. apply Qc_pos_nz. auto. Qed.

Lemma app_of3 f (w : nat -> Qc) : app3 (of3 f) (V3 (w 0) (w 1) (w 2)) = V3 (lapp 3 f w 0) (lapp 3 f w 1) (lapp 3 f w 2).
Proof. unfold lapp. rewrite !sumf_3. reflexivity. Qed.

(** a finite matrix of order > 2 in three dimensions turns in one sense about its axis *)
Definition is_axis (f : mxf) (e : Qc) (a : list Qc) : Prop := length a = 3 /\ lead_pos 3 (vget a) /\ eigen 3 f e (vget a).
Lemma det_axis_sign f : detd 3 f = 1%Qc \/ detd 3 f = (- (1))%Qc -> axis_sign 3 f = detd 3 f.
Proof. unfold axis_sign. intros [-> | ->]; reflexivity. Qed.
Lemma emb3_app f v : app3 (emb 3 f) v = comb3 (detd 3 f) (app3 (of3 f) v) 0%Qc zv3.
Proof. cbn [emb]. generalize (detd 3 f), (of3 f). intros t m. v3ring. Qed.
Lemma vol_scale_r a v t w : vol a v (comb3 t w 0%Qc zv3) = (t * vol a v w)%Qc.
Proof. v3ring. Qed.
Lemma sense3 f k a : 0 < k -> meq 3 (powf 3 f k) delta -> ~ meq 3 (powf 3 f 2) delta -> is_axis f (axis_sign 3 f) a ->
  forall v w, length v = 3 -> length w = 3 -> ~ dependent a v -> ~ dependent a w -> (0 < vol (lv3 a) (lv3 v) (app3 (of3 f) (lv3 v)) * vol (lv3 a) (lv3 w) (app3 (of3 f) (lv3 w)))%Qc.
Proof.
  intros Hk Pk P2 (La & _ & Ea) v w Lv Lw Nv Nw. pose proof (finite_det 3 f k ltac:(lia) Hk Pk) as D. rewrite det_axis_sign in Ea by auto. set (t := detd 3 f) in *.
  assert (T : (t * t)%Qc = 1%Qc) by (destruct D as [-> | ->]; reflexivity).
  assert (S : (0 < sense (emb 3 f) (lv3 a) (lv3 v) * sense (emb 3 f) (lv3 a) (lv3 w))%Qc).
  { apply (sense_constant (emb 3 f) k); auto.
    - rewrite <- emb_pow by lia. rewrite (emb_ext 3 _ delta) by (auto; lia). apply emb_delta. lia.
    - apply det_emb; [lia|exact D].
    - rewrite <- emb_pow by lia. intros C. apply emb_id in C as [C|(_ & C & _)]; [auto| |lia]. rewrite detd_pow in C by lia. fold t in C. destruct D as [D|D]; rewrite D in C; discriminate C.
    - rewrite emb3_app. fold t. unfold lv3 at 1. rewrite app_of3. rewrite !Ea by lia. unfold comb3, lv3, zv3. cbn [vx vy vz]. apply v3_eq; cbn [vx vy vz]; [transitivity (t * t * vget a 0%nat)%Qc|transitivity (t * t * vget a 1%nat)%Qc|transitivity (t * t * vget a 2%nat)%Qc]; try ring; rewrite T; ring.
    - apply dep_indep; auto.
    - apply dep_indep; auto. }
  unfold sense in S. rewrite !emb3_app, !vol_scale_r in S. fold t in S.
  replace (vol (lv3 a) (lv3 v) (app3 (of3 f) (lv3 v)) * vol (lv3 a) (lv3 w) (app3 (of3 f) (lv3 w)))%Qc with (t * vol (lv3 a) (lv3 v) (app3 (of3 f) (lv3 v)) * (t * vol (lv3 a) (lv3 w) (app3 (of3 f) (lv3 w))))%Qc; auto.
  transitivity (t * t * (vol (lv3 a) (lv3 v) (app3 (of3 f) (lv3 v)) * vol (lv3 a) (lv3 w) (app3 (of3 f) (lv3 w))))%Qc; [ring|rewrite T; ring].
Qed.
(** the plane: v and its image *)
Definition area (x y x' y' : Qc) : Qc := (x * y' - y * x')%Qc.
Definition turn2 (f : mxf) (x y : Qc) : Qc := area x y (f 0%nat 0%nat * x + f 0%nat 1%nat * y)%Qc (f 1%nat 0%nat * x + f 1%nat 1%nat * y)%Qc.
Lemma sense2 f k : 0 < k -> meq 2 (powf 2 f k) delta -> ~ meq 2 (powf 2 f 2) delta -> detd 2 f = 1%Qc ->
  forall x y x' y', ~ (x = 0%Qc /\ y = 0%Qc) -> ~ (x' = 0%Qc /\ y' = 0%Qc) -> (0 < turn2 f x y * turn2 f x' y')%Qc.
Proof.
  intros Hk Pk P2 D x y x' y' N N'. set (a := V3 0%Qc 0%Qc 1%Qc).
  assert (S : (0 < sense (emb 2 f) a (V3 x y 0%Qc) * sense (emb 2 f) a (V3 x' y' 0%Qc))%Qc).
  { apply (sense_constant (emb 2 f) k); auto.
    - rewrite <- emb_pow by lia. rewrite (emb_ext 2 _ delta) by (auto; lia). apply emb_delta. lia.
    - apply det_emb; [lia|auto].
    - rewrite <- emb_pow by lia. intros C. apply emb_id in C as [C|(C & _)]; [auto|discriminate C|lia].
    - cbn [emb]. rewrite D. unfold a. v3ring.
    - intros p q E. assert (E1 : (q * x)%Qc = 0%Qc) by (transitivity (p * 0 + q * x)%Qc; [ring|exact (f_equal vx E)]). assert (E2 : (q * y)%Qc = 0%Qc) by (transitivity (p * 0 + q * y)%Qc; [ring|exact (f_equal vy E)]).
      assert (E3 : (p * 1 + q * 0)%Qc = 0%Qc) by exact (f_equal vz E). split; [rewrite <- E3; ring|]. destruct (Qc_eq_dec q 0%Qc) as [|Nq]; auto. exfalso. apply N. destruct (Qcmult_integral _ _ E1), (Qcmult_integral _ _ E2); tauto.
    - intros p q E. assert (E1 : (q * x')%Qc = 0%Qc) by (transitivity (p * 0 + q * x')%Qc; [ring|exact (f_equal vx E)]). assert (E2 : (q * y')%Qc = 0%Qc) by (transitivity (p * 0 + q * y')%Qc; [ring|exact (f_equal vy E)]).
      assert (E3 : (p * 1 + q * 0)%Qc = 0%Qc) by exact (f_equal vz E). split; [rewrite <- E3; ring|]. destruct (Qc_eq_dec q 0%Qc) as [|Nq]; auto. exfalso. apply N'. destruct (Qcmult_integral _ _ E1), (Qcmult_integral _ _ E2); tauto. }
  assert (Q : forall x y, sense (emb 2 f) a (V3 x y 0%Qc) = turn2 f x y). { intros u v. unfold turn2, area. cbn [emb]. generalize (detd 2 f). intros t. unfold a, sense, vol, cols3, app3, det3. cbn [vx vy vz c00 c01 c02 c10 c11 c12 c20 c21 c22]. ring. }
  rewrite !Q in S. exact S.
Qed.

(** what is true of the last field *)
Definition clockwise_spec (d : nat) (f : mxf) (n : nat) (pres : bool) (axis : option (list Qc)) (c : bool) : Prop :=
  (0 < n <= 2 -> c = (pres || negb (d =? 2))) /\
  (d = 2 -> pres = false -> c = false) /\
  (d = 2 -> 2 < n -> pres = true -> forall x y, ~ (x = 0%Qc /\ y = 0%Qc) -> if c then (turn2 f x y < 0)%Qc else (0 < turn2 f x y)%Qc) /\
  (d = 3 -> 2 < n -> forall a, axis = Some a -> forall v, length v = 3 -> ~ dependent a v ->
     if c then (0 < vol (lv3 a) (lv3 v) (app3 (of3 f) (lv3 v)))%Qc else (vol (lv3 a) (lv3 v) (app3 (of3 f) (lv3 v)) < 0)%Qc).

Lemma not_square d f n : is_order d f n -> 2 < n -> ~ meq d (powf d f 2) delta.
Proof. intros [[-> _]|(_ & _ & H)] Hn; [lia|]. apply H. lia. Qed.
Lemma order_pow d f n : is_order d f n -> 0 < n -> meq d (powf d f n) delta.
Proof. intros [[-> _]|(_ & H & _)] Hn; [lia|auto]. Qed.

Lemma details_ok d f : 1 <= d <= 3 -> exists axis n c, details_from (mk d d f) = Ret (Details (mk d d f) d axis n (negb (q_neg (detd d f))) c) /\
  is_order d f n /\ axis_spec d f (axis_sign d f) axis /\ clockwise_spec d f n (negb (q_neg (detd d f))) axis c.
Proof.
  intros Hd. unfold details_from. cbn [nrows ncols mk]. change (Mat d d (concat (frows d d f))) with (mk d d f). rewrite Nat.eqb_refl. cbn [assert bind].
  assert (R : (1 <=? d) && (d <=? 3) = true) by (apply andb_true_intro; split; apply Nat.leb_le; lia). rewrite R. cbn [assert bind]. clear R.
  unfold is_left_handed at 1. rewrite det_mk by auto. cbn [bind]. set (pr := negb (q_neg (detd d f))).
  destruct (matrix_order_ok d f Hd) as (n & En & On & _). rewrite En. cbn [bind]. destruct (axis_ok d f Hd) as (ax & Ea & Sa). rewrite Ea. cbn [bind].
  assert (Q : ((n =? 0) || (2 <? n) = true <-> n = 0 \/ 2 < n)) by (rewrite orb_true_iff, Nat.eqb_eq, Nat.ltb_lt; tauto).
  destruct (Nat.eqb_spec d 2) as [E2|N2].
  - subst d. rewrite index_mk by lia. cbn [bind]. exists ax, n. destruct pr eqn:Epr; cbn [negb].
    + destruct ((n =? 0) || (2 <? n)) eqn:C.
      * eexists. splits; [reflexivity|auto|auto|]. assert (C' : n = 0 \/ 2 < n) by (apply Q; auto). unfold clockwise_spec. splits; try discriminate; [intros; lia|]. intros _ Hn _ x y N.
        pose proof (order_pow 2 f n On ltac:(lia)) as P. pose proof (not_square 2 f n On Hn) as P2.
        assert (D : detd 2 f = 1%Qc). { destruct (finite_det 2 f n ltac:(lia) ltac:(lia) P) as [D|D]; auto. unfold pr in Epr. rewrite D in Epr. discriminate Epr. }
        pose proof (sense2 f n ltac:(lia) P P2 D x y 0%Qc 1%Qc N ltac:(intros [_ W]; discriminate W)) as S.
        assert (T : turn2 f 0%Qc 1%Qc = (- f 0%nat 1%nat)%Qc) by (unfold turn2, area; ring). rewrite T in S. assert (S' : (0 < f 0%nat 1%nat * - turn2 f x y)%Qc) by (replace (f 0%nat 1%nat * - turn2 f x y)%Qc with (turn2 f x y * - f 0%nat 1%nat)%Qc by ring; auto). apply same_sign in S' as [S1 S2].
        destruct (q_neg_spec (f 0%nat 1%nat)) as [G|G]; cbn [negb]; [specialize (S1 G); qclra|specialize (S2 G); qclra].
      * exists true. splits; auto. assert (C' : ~ (n = 0 \/ 2 < n)) by (rewrite <- Q; congruence). unfold clockwise_spec. splits; try discriminate; intros; auto; lia.
    + exists false. splits; auto. unfold clockwise_spec. splits; try discriminate; auto.
  - exists ax, n. assert (M : (if d =? 2 then false else true) = true) by (destruct (Nat.eqb_spec d 2); [contradiction|auto]).
    destruct ax as [a|].
    + destruct ((n =? 0) || (2 <? n)) eqn:C.
      * assert (C' : n = 0 \/ 2 < n) by (apply Q; auto). destruct Sa as (La & Pa & Ea' & Ua).
        assert (H3 : d = 3).
        { assert (d = 1 \/ d = 3) as [-> |] by lia; auto. exfalso. destruct (lead_nz _ _ Pa) as (i & Hi & N). assert (i = 0) as -> by lia.
          pose proof (Ea' 0 ltac:(lia)) as Z. unfold lapp in Z. rewrite sumf_1 in Z. cbn [rmul Qc_dom] in Z. set (e := axis_sign 1 f) in *. assert (F : f 0%nat 0%nat = e) by (apply (Qcmult_cancel (vget a 0%nat)); auto; rewrite (Qcmult_comm _ (f 0%nat 0%nat)), Z; ring).
          assert (e = 1%Qc \/ e = (- (1))%Qc) by (unfold e, axis_sign; destruct (negb _ && _); auto).
          assert (P2 : meq 1 (powf 1 f 2) delta). { intros i j Hi' Hj. assert (i = 0) as -> by lia. assert (j = 0) as -> by lia. cbn [powf]. unfold lmul. rewrite !sumf_1. rewrite F. destruct H as [-> | ->]; reflexivity. }
          destruct C' as [-> |C']; [|apply (not_square 1 f n On C' P2)]. destruct On as [[_ O]|[O _]]; [|lia]. apply (O 2); auto. }
        rewrite H3 in *. destruct (turns_ok f a La) as (v & Nv & Lv & Et); [destruct (lead_nz _ _ Pa) as (i & _ & N); eauto|].
        rewrite Et. cbn [bind]. eexists. splits; [reflexivity|auto|unfold axis_spec; splits; auto|]. unfold clockwise_spec. splits; try lia.
        intros _ Hn a' Ea2 w Lw Nw. injection Ea2 as <-. pose proof (sense3 f n a ltac:(lia) (order_pow 3 f n On ltac:(lia)) (not_square 3 f n On Hn) ltac:(unfold is_axis; splits; auto) v w Lv Lw Nv Nw) as S.
        destruct (q_neg_spec (vol (lv3 a) (lv3 v) (app3 (of3 f) (lv3 v)))) as [G|G]; cbn [negb]; apply (same_sign _ _ S); auto.
      * exists true. splits; auto. assert (C' : ~ (n = 0 \/ 2 < n)) by (rewrite <- Q; congruence). unfold clockwise_spec. splits; [intros _|lia|lia|lia].
        destruct pr, (Nat.eqb_spec d 2); auto; contradiction.
    + exists true. splits; auto. unfold clockwise_spec. splits; [intros _|lia|lia|intros _ _ a W; discriminate W].
      destruct pr, (Nat.eqb_spec d 2); auto; contradiction.
Qed.

(** ** when a matrix of finite order has an axis *)
Lemma emb_finite d f k : 1 <= d <= 3 -> meq d (powf d f k) delta -> pow3 (emb d f) k = id3.
Proof. intros Hd H. rewrite <- emb_pow by lia. rewrite (emb_ext d _ delta) by auto. apply emb_delta; auto. Qed.
Lemma v3_nz v : v <> zv3 -> exists i, i < 3 /\ vget [vx v; vy v; vz v] i <> 0%Qc.
Proof.
  intros N. destruct (Qc_eq_dec (vx v) 0%Qc); [|exists 0; auto]. destruct (Qc_eq_dec (vy v) 0%Qc); [|exists 1; auto]. destruct (Qc_eq_dec (vz v) 0%Qc); [|exists 2; auto].
  exfalso. apply N. apply v3_eq; auto.
Qed.
Lemma eigen3 f w : detd 3 f = 1%Qc \/ detd 3 f = (- (1))%Qc -> eigen 3 f (detd 3 f) w <-> app3 (emb 3 f) (V3 (w 0) (w 1) (w 2)) = V3 (w 0) (w 1) (w 2).
Proof.
  intros D. set (t := detd 3 f). assert (T : (t * t)%Qc = 1%Qc) by (unfold t; destruct D as [-> | ->]; reflexivity). rewrite emb3_app. fold t. rewrite app_of3.
  assert (G : forall x y : Qc, x = (t * y)%Qc <-> (t * x + 0 * 0)%Qc = y).
  { intros x y. split; [intros ->; transitivity (t * t * y)%Qc; [ring|rewrite T; ring]|intros <-; transitivity (t * t * x)%Qc; [rewrite T; ring|ring]]. }
  split.
  - intros E. apply v3_eq; cbn [comb3 zv3 vx vy vz]; apply G; apply E; lia.
  - intros E i Hi. apply G. destruct i as [|[|[|i]]]; [exact (f_equal vx E)|exact (f_equal vy E)|exact (f_equal vz E)|lia].
Qed.
Lemma eigen_scalar d f e w : meq d f (fun i j => (e * delta i j)%Qc) -> eigen d f e w.
Proof.
  intros H i Hi. unfold lapp. transitivity (sumf (R := Qc) d (fun k => rmul e (rmul (delta i k) (w k)))).
  - apply sumf_ext. intros k Hk. rewrite H by auto. cbn [rmul Qc_dom]. ring.
  - rewrite sumf_scale. pose proof (lapp_delta (R := Qc) d w i Hi) as L. unfold lapp in L. rewrite L. reflexivity.
Qed.
Lemma axis_two d f e v : 2 <= d -> meq d f (fun i j => (e * delta i j)%Qc) -> ~ axis_spec d f e (Some v).
Proof.
  intros Hd H (L & P & _ & U). destruct (U (delta 0)) as (t & Ht); [apply eigen_scalar; auto|]. destruct (U (delta 1)) as (s & Hs); [apply eigen_scalar; auto|].
  pose proof (Ht 0 ltac:(lia)) as A. pose proof (Ht 1 ltac:(lia)) as B. pose proof (Hs 0 ltac:(lia)) as C. pose proof (Hs 1 ltac:(lia)) as D. cbv [delta Nat.eqb r0 r1 Qc_dom] in A, B, C, D.
  assert (N : s <> 0%Qc) by (intros ->; assert (W : 1%Qc = 0%Qc) by (rewrite D; ring); discriminate W).
  symmetry in C. destruct (Qcmult_integral _ _ C) as [Z|Z]; [contradiction|]. rewrite Z in A. assert (W : 1%Qc = 0%Qc) by (rewrite A; ring). discriminate W.
Qed.
Lemma axis_none d f n : 1 <= d <= 3 -> is_order d f n -> 0 < n -> forall o, axis_spec d f (axis_sign d f) o ->
  o = None <-> (d = 2 /\ detd 2 f = 1%Qc) \/ (d = 3 /\ (meq 3 f delta \/ meq 3 f (fun i j => - delta i j)%Qc)).
Proof.
  intros Hd On Hn o Ho. pose proof (order_pow d f n On Hn) as P. pose proof (finite_det d f n Hd Hn P) as D. pose proof (emb_finite d f n Hd P) as P3. pose proof (det_emb d f Hd D) as D3.
  assert (d = 1 \/ d = 2 \/ d = 3) as [-> | [-> | ->]] by lia.
  - split; [intros -> | intros [[C _]|[C _]]; discriminate C]. exfalso. cbn [detd] in D. assert (E : meq 1 f (fun i j => (axis_sign 1 f * delta i j)%Qc)).
    { intros i j Hi Hj. assert (i = 0) as -> by lia. assert (j = 0) as -> by lia. unfold axis_sign, detd. destruct D as [-> | ->]; reflexivity. }
    destruct Ho as [Z|(w1 & w2 & _ & _ & I)].
    + specialize (Z (fun _ => 1%Qc) (eigen_scalar _ _ _ _ E) 0 ltac:(lia)). discriminate Z.
    + destruct (Qc_eq_dec (w1 0) 0%Qc) as [Z|Z].
      * destruct (I 1%Qc 0%Qc) as [W _]; [|discriminate W]. intros i Hi. assert (i = 0) as -> by lia. rewrite Z. ring.
      * destruct (I (- w2 0%nat)%Qc (w1 0%nat)) as [_ W]; [|contradiction]. intros i Hi. assert (i = 0) as -> by lia. ring.
  - change (axis_sign 2 f) with 1%Qc in Ho. assert (Em : forall w, eigen 2 f 1%Qc w -> app3 (emb 2 f) (V3 (w 0) (w 1) 0%Qc) = V3 (w 0) (w 1) 0%Qc).
    { intros w E. pose proof (E 0 ltac:(lia)) as E0. pose proof (E 1 ltac:(lia)) as E1. unfold lapp in E0, E1. rewrite sumf_2 in E0, E1. cbn [rmul Qc_dom] in E0, E1.
      cbn [emb]. unfold app3. cbn [vx vy vz c00 c01 c02 c10 c11 c12 c20 c21 c22]. apply v3_eq; cbn [vx vy vz]; [rewrite <- (Qcmult_1_l (w 0%nat)) at 2; rewrite <- E0; ring|rewrite <- (Qcmult_1_l (w 1%nat)) at 2; rewrite <- E1; ring|ring]. }
    split.
    + intros ->. left. split; auto. destruct D as [|D]; auto. exfalso. destruct (fixed_vector (emb 2 f) n Hn P3 D3) as (v & Nv & Fv).
      assert (Vz : vz v = 0%Qc). { pose proof (f_equal vz Fv) as Z. cbn [emb] in Z. rewrite D in Z. unfold app3 in Z. cbn [vx vy vz c00 c01 c02 c10 c11 c12 c20 c21 c22] in Z. revert Z. generalize (vx v), (vy v), (vz v). clear. intros. qclra. }
      set (w := vget [vx v; vy v]). assert (Ew : eigen 2 f 1%Qc w).
      { intros i Hi. unfold lapp. rewrite sumf_2. cbn [rmul Qc_dom]. pose proof (f_equal vx Fv) as X. pose proof (f_equal vy Fv) as Y. cbn [emb] in X, Y. unfold app3 in X, Y. cbn [vx vy vz c00 c01 c02 c10 c11 c12 c20 c21 c22] in X, Y.
        destruct i as [|[|i]]; [| |lia]; unfold w, vget; cbn [nth]; [rewrite <- X at 2; ring|rewrite <- Y at 2; ring]. }
      destruct Ho as [Z|(w1 & w2 & E1 & E2 & I)].
      * apply Nv. apply v3_eq; [apply (Z w Ew 0); lia|apply (Z w Ew 1); lia|auto].
      * assert (C : emb 2 f = id3). { refine (two_fixed (emb 2 f) n _ _ Hn P3 D3 _ (Em w1 E1) (Em w2 E2)). intros x y E. apply I. intros i Hi. destruct i as [|[|i]]; [exact (f_equal vx E)|exact (f_equal vy E)|lia]. }
        pose proof (f_equal c22 C) as W. cbn [emb c22 id3] in W. rewrite D in W. discriminate W.
    + intros [[_ D1]|[C _]]; [|discriminate C]. destruct o as [v|]; auto. exfalso. destruct Ho as (L & Pv & Ev & U).
      assert (C : emb 2 f = id3).
      { apply (two_fixed (emb 2 f) n (V3 (vget v 0) (vget v 1) 0%Qc) (V3 0%Qc 0%Qc 1%Qc) Hn P3 D3).
        - intros x y E. pose proof (f_equal vx E) as X. pose proof (f_equal vy E) as Y. pose proof (f_equal vz E) as Z. cbn [comb3 zv3 vx vy vz] in X, Y, Z. assert (Hy : y = 0%Qc) by (rewrite <- Z; ring). split; auto.
          destruct (Qc_eq_dec x 0%Qc) as [|Nx]; auto. exfalso. destruct (lead_nz _ _ Pv) as (i & Hi & N). apply N.
          assert (X' : (x * vget v 0%nat)%Qc = 0%Qc) by (rewrite <- X; ring). assert (Y' : (x * vget v 1%nat)%Qc = 0%Qc) by (rewrite <- Y; ring).
          destruct (Qcmult_integral _ _ X'); [contradiction|]. destruct (Qcmult_integral _ _ Y'); [contradiction|]. destruct i as [|[|i]]; auto; lia.
        - apply Em. auto.
        - cbn [emb]. rewrite D1. v3ring. }
      apply emb_id in C as [C|(C & _)]; [|discriminate C|lia]. apply (axis_two 2 f 1%Qc v); [lia| |unfold axis_spec; splits; auto].
      intros i j Hi Hj. rewrite C by auto. ring.
  - rewrite det_axis_sign in Ho by auto. split.
    + intros ->. right. split; auto. assert (C : emb 3 f = id3).
      { destruct Ho as [Z|(w1 & w2 & E1 & E2 & I)].
        - exfalso. destruct (fixed_vector (emb 3 f) n Hn P3 D3) as (v & Nv & Fv). set (w := vget [vx v; vy v; vz v]). assert (Ew : eigen 3 f (detd 3 f) w) by (apply eigen3; auto; destruct v; exact Fv).
          apply Nv. apply v3_eq; [apply (Z w Ew 0)|apply (Z w Ew 1)|apply (Z w Ew 2)]; lia.
        - apply eigen3 in E1, E2; auto. refine (two_fixed (emb 3 f) n _ _ Hn P3 D3 _ E1 E2). intros x y E. apply I. intros i Hi. destruct i as [|[|[|i]]]; [exact (f_equal vx E)|exact (f_equal vy E)|exact (f_equal vz E)|lia]. }
      apply emb_id in C as [C|(_ & _ & C)]; auto.
    + intros [[C _]|[_ C]]; [discriminate C|]. destruct o as [v|]; auto. exfalso. apply (axis_two 3 f (detd 3 f) v); auto. destruct C as [C|C].
      * rewrite (detd_ext 3 f delta ltac:(lia) C), detd_delta by lia. intros i j Hi Hj. rewrite C by auto. ring.
      * rewrite (detd_ext 3 f _ ltac:(lia) C). intros i j Hi Hj. rewrite C by auto. change (detd 3 (fun i j => - delta i j)%Qc) with (- (1))%Qc. ring.
Qed.
