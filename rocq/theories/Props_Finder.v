(** Properties C63-C65 of src/spacegroups/finder.rs: order, axis and sense of rotation of a matrix. *)
From Coq Require Import String Ascii List ZArith NArith Lia Bool PeanoNat QArith Qcanon.
From Verif Require Import Base QcTac Vec Elim Scalars Matrix MatrixMore LinAlg ZQ Lattices Reduce Props_Lattices Geometry Generate Group Crystal Rotation Finder Details Sense.
Import ListNotations.
Close Scope Q_scope. Close Scope Qc_scope.
Local Open Scope list_scope.
Open Scope nat_scope.

(** ** specification *)
Definition square_matrix (d : nat) (m : mat Qc) : Prop := wfm m /\ nrows m = d /\ ncols m = d.
(** p is the k-th power of m *)
Inductive power (m : mat Qc) : nat -> mat Qc -> Prop :=
| power_0 e : identity (nrows m) = Ret e -> power m 0 e
| power_S k p q : power m k p -> mat_mul p m = Ret q -> power m (S k) q.
Definition is_identity (d : nat) (m : mat Qc) : Prop := identity d = Ret m.
(** the product of m with the column v *)
Definition image (d : nat) (m : mat Qc) (v : list Qc) : list Qc :=
  from_coordinates d (fun i => fold_right Qcplus 0%Qc (map (fun j => ent m i j * coordinate j v)%Qc (seq 0 d))).
(** linear dependence of two vectors *)
Definition parallel (d : nat) (v w : list Qc) : Prop :=
  exists x y, ~ (x = 0%Qc /\ y = 0%Qc) /\ plus d (multiple d x v) (multiple d y w) = origin d.
(** v is a multiple by e under m *)
Definition eigenvector (d : nat) (m : mat Qc) (e : Qc) (v : list Qc) : Prop := point d v /\ image d m v = multiple d e v.
(** the first coordinate that is not 0 is positive *)
Definition leading_positive (d : nat) (v : list Qc) : Prop :=
  exists k, k < d /\ (forall i, i < k -> coordinate i v = 0%Qc) /\ (0 < coordinate k v)%Qc.
(** the eigenvalue of the axis: -1 for improper operations of odd dimension *)
Definition axis_eigenvalue (d : nat) (det e : Qc) : Prop := (Nat.Odd d /\ (det < 0)%Qc /\ e = (- (1))%Qc) \/ (~ (Nat.Odd d /\ (det < 0)%Qc) /\ e = 1%Qc).
(** oriented area and volume *)
Definition area2 (v w : list Qc) : Qc := (coordinate 0 v * coordinate 1 w - coordinate 1 v * coordinate 0 w)%Qc.
Definition volume3 (a v w : list Qc) : Qc :=
  (coordinate 0 a * (coordinate 1 v * coordinate 2 w - coordinate 2 v * coordinate 1 w)
   - coordinate 1 a * (coordinate 0 v * coordinate 2 w - coordinate 2 v * coordinate 0 w)
   + coordinate 2 a * (coordinate 0 v * coordinate 1 w - coordinate 1 v * coordinate 0 w))%Qc.

(** ** from the specification to the proofs *)
Lemma square_mk d m : square_matrix d m -> m = mk d d (ent m).
Proof. intros (W & <- & E). rewrite <- E at 2. apply wfm_eq_mk. auto. Qed.
Lemma power_powf d f k p : 0 < d -> power (mk d d f) k p <-> p = mk d d (powf d f k).
Proof.
  intros Hd. split.
  - induction 1 as [e E|k p q _ IH E].
    + cbn [nrows mk] in E. rewrite identity_mk in E by auto. injection E as <-. reflexivity.
    + subst p. rewrite mul_mk in E by auto. injection E as <-. reflexivity.
  - intros ->. induction k as [|k IH]; [apply power_0; cbn [nrows mk]; rewrite identity_mk by auto; reflexivity|].
    econstructor; [exact IH|]. rewrite mul_mk by auto. reflexivity.
Qed.
Lemma identity_is d m : 0 < d -> is_identity d m <-> m = mk d d delta.
Proof. intros Hd. unfold is_identity. rewrite identity_mk by auto. split; [intros H; injection H as <-; auto|intros ->; auto]. Qed.
Lemma power_id d f k e : 0 < d -> is_identity d e -> power (mk d d f) k e <-> meq d (powf d f k) delta.
Proof. intros Hd E. apply identity_is in E; auto. subst e. rewrite power_powf by auto. rewrite meq_mk. intuition. Qed.
Lemma sum_map (g : nat -> Qc) d : fold_right Qcplus 0%Qc (map g (seq 0 d)) = sumf d g.
Proof.
  induction d as [|d IH]; auto. rewrite seq_S, map_app, fold_right_app. cbn [map fold_right sumf]. rewrite Nat.add_0_l. rewrite <- IH.
  generalize (map g (seq 0 d)) (g d). clear. intros l x. induction l as [|y l IH]; cbn [fold_right radd Qc_dom].
  - ring.
  - rewrite IH. cbn [radd Qc_dom]. ring.
Qed.
Lemma image_get d m v i : i < d -> coordinate i (image d m v) = lapp d (ent m) (vget v) i.
Proof. intros Hi. unfold image, coordinate. rewrite from_get by auto. rewrite sum_map. reflexivity. Qed.
Lemma image_length d m v : length (image d m v) = d. Proof. apply from_length. Qed.
Lemma eigenvector_eigen d m e v : point d v -> eigenvector d m e v <-> eigen d (ent m) e (vget v).
Proof.
  intros L. split.
  - intros (_ & E) i Hi. rewrite <- image_get by auto. rewrite E. unfold multiple, coordinate. rewrite from_get by auto. reflexivity.
  - intros E. split; auto. apply (ext_lt d); [apply from_length|apply from_length|]. intros k Hk. pose proof (image_get d m v k Hk) as I. unfold coordinate in I. rewrite I, E by auto. unfold multiple. rewrite from_get by auto. reflexivity.
Qed.
Lemma parallel_dependent d v w : point d v -> point d w -> parallel d v w <-> dependent v w.
Proof.
  intros Lv Lw. unfold point in *. split; intros (x & y & N & H); exists x, y; (split; [auto|]).
  - intros i. destruct (lt_dec i d) as [Hi|Hi].
    + apply (f_equal (fun l => nth i l 0%Qc)) in H. unfold plus, multiple, origin, coordinate in H. rewrite !from_get in H by auto. exact H.
    + unfold vget. rewrite !nth_overflow by lia. cbn. ring.
  - apply (ext_lt d); [apply from_length|apply from_length|]. intros k Hk. unfold plus, multiple, origin, coordinate. rewrite !from_get by auto. apply H.
Qed.
Lemma axis_eigenvalue_sign d f e : axis_eigenvalue d (detd d f) e <-> e = axis_sign d f.
Proof.
  unfold axis_eigenvalue, axis_sign. assert (O : negb (d mod 2 =? 0) = true <-> Nat.Odd d).
  { rewrite negb_true_iff, Nat.eqb_neq. split.
    - intros H. exists (d / 2). pose proof (Nat.div_mod d 2 ltac:(lia)). pose proof (Nat.mod_upper_bound d 2 ltac:(lia)). lia.
    - intros [k ->] C. replace (2 * k + 1) with (1 + k * 2) in C by lia. rewrite Nat.mod_add in C by lia. discriminate C. }
  destruct (negb (d mod 2 =? 0)); cbn [andb].
  - assert (Nat.Odd d) by (apply O; auto). destruct (q_neg_spec (detd d f)); intuition.
  - assert (~ Nat.Odd d) by (intros C; apply O in C; discriminate C). intuition.
Qed.
Lemma order_divides d f n k : 0 < d -> is_order d f n -> meq d (powf d f k) delta <-> Nat.divide n k.
Proof.
  intros Hd O.
  assert (M : forall a b, meq d (powf d f a) delta -> meq d (powf d f (b * a)) delta).
  { intros a b Ha. induction b as [|b IH]; [apply meq_refl|]. cbn [Nat.mul]. eapply meq_trans; [apply powf_add|]. eapply meq_trans; [apply meq_lmul; [exact Ha|exact IH]|]. intros i j Hi Hj. apply (lmul_delta_l (R := Qc)); auto. }
  destruct O as [[-> O]|(Hn & P & Mn)].
  - split; [intros H; destruct k; [exists 0; auto|exfalso; apply (O (S k)); auto; lia]|intros (j & ->)]. rewrite Nat.mul_0_r. apply meq_refl.
  - split; [|intros (j & ->); auto]. intros H. apply Nat.mod_divide; [lia|]. destruct (Nat.eq_dec (k mod n) 0) as [|C]; auto. exfalso. apply (Mn (k mod n)); [pose proof (Nat.mod_upper_bound k n ltac:(lia)); lia|].
    pose proof (Nat.div_mod k n ltac:(lia)) as E. rewrite (Nat.mul_comm n) in E. rewrite E in H.
    eapply meq_trans; [|exact H]. apply meq_sym. eapply meq_trans; [apply powf_add|]. eapply meq_trans; [apply meq_lmul; [exact (M n (k / n) P)|apply meq_refl]|]. intros i j Hi Hj. apply (lmul_delta_l (R := Qc)); auto.
Qed.

(** ** C63: OperatorDetails::from accepts every square matrix with one to three rows.  A power of the matrix is the identity
    exactly if its exponent is a multiple of the order reported; the order 0 stands for matrices of infinite order, and no
    other orders than 1, 2, 3, 4 and 6 occur.  The orientation is that given by the determinant. *)
Theorem C63_order d m e det : 1 <= d <= 3 -> square_matrix d m -> is_identity d e -> determinant m = Ret det ->
  exists o, details_from m = Ret o /\ od_matrix o = m /\ od_dimension o = d /\
    (od_preserving o = true <-> (0 <= det)%Qc) /\
    In (od_order o) [0; 1; 2; 3; 4; 6] /\ (forall k, power m k e <-> Nat.divide (od_order o) k).
Proof.
  intros Hd Sq He D. rewrite (square_mk d m Sq) in *. revert D. generalize (ent m). clear m Sq. intros f D. rewrite det_mk in D by auto. injection D as <-.
  destruct (details_ok d f Hd) as (ax & n & c & E & On & _). eexists. split; [exact E|]. cbn [od_matrix od_dimension od_preserving od_order]. splits; auto.
  - destruct (q_neg_spec (detd d f)) as [G|G]; cbn [negb]; split; try discriminate; auto.
    + intros C. exfalso. apply (Qclt_not_le _ _ G). auto.
    + intros _. apply Qcnot_lt_le. auto.
  - exact (order_values d f n Hd On).
  - intros k. rewrite (power_id d f k e) by (auto; lia). apply order_divides; auto; lia.
Qed.
Theorem C63_refused m : details_from m <> Panic -> nrows m = ncols m /\ 1 <= nrows m <= 3.
Proof.
  unfold details_from. intros H. destruct (Nat.eqb_spec (nrows m) (ncols m)) as [E|]; [|cbn in H; congruence]. split; auto. cbn [assert bind] in H.
  destruct (Nat.leb_spec 1 (nrows m)), (Nat.leb_spec (nrows m) 3); auto; cbn [andb assert bind] in H; congruence.
Qed.
Print Assumptions C63_order.
Print Assumptions C63_refused.
(** a rotation by 60 degrees in the coordinates of a hexagonal lattice, a shear, a matrix of order 6 in three dimensions *)
Definition qmat (n : nat) (l : list Z) : mat Qc := Mat n n (map ZQ l).
Example C63_example :
  omap od_order (details_from (qmat 2 [0; -1; 1; 1]%Z)) = Ret 6 /\ omap od_order (details_from (qmat 2 [1; 1; 0; 1]%Z)) = Ret 0 /\
  omap od_order (details_from (qmat 3 [0; 0; -1; -1; 0; 0; 0; -1; 0]%Z)) = Ret 6 /\ square_matrix 2 (qmat 2 [0; -1; 1; 1]%Z).
Proof. splits; try (vm_compute; reflexivity). unfold square_matrix, wfm, qmat. cbn. splits; auto. discriminate. Qed.

(** ** C64: the axis.  It is reported if and only if the eigenvectors for 1 (for -1, if the matrix reverses the orientation
    and the dimension is odd) are the multiples of one vector, and is then one of these, with its first nonzero coordinate positive. *)
Theorem C64_axis d m det : 1 <= d <= 3 -> square_matrix d m -> determinant m = Ret det ->
  exists o e, details_from m = Ret o /\ axis_eigenvalue d det e /\
    match od_axis o with
    | Some a => point d a /\ leading_positive d a /\ forall v, point d v -> eigenvector d m e v <-> exists t, v = multiple d t a
    | None => (forall v, eigenvector d m e v -> v = origin d) \/ exists v w, eigenvector d m e v /\ eigenvector d m e w /\ ~ parallel d v w
    end.
Proof.
  intros Hd Sq D. pose proof (square_mk d m Sq) as Em. assert (D' : det = detd d (ent m)) by (rewrite Em, det_mk in D by auto; injection D as <-; auto). subst det.
  destruct (details_ok d (ent m) Hd) as (ax & n & c & E & On & Sa & _). rewrite <- Em in E. exists (Details m d ax n (negb (q_neg (detd d (ent m)))) c), (axis_sign d (ent m)). split; auto. split; [apply axis_eigenvalue_sign; auto|]. cbn [od_axis].
  destruct ax as [a|]; cbn [axis_spec] in Sa.
  - destruct Sa as (La & Pa & Ea & Ua). splits; auto. intros v Lv. rewrite eigenvector_eigen by auto. split.
    + intros Ev. destruct (Ua (vget v) Ev) as (t & Ht). exists t. apply (ext_lt d); auto; [apply from_length|]. intros k Hk. unfold multiple, coordinate. rewrite from_get by auto. apply Ht. auto.
    + intros (t & ->). intros i Hi. assert (G : forall k, k < d -> vget (multiple d t a) k = (t * vget a k)%Qc) by (intros k Hk; unfold multiple, vget; change r0 with 0%Qc; rewrite from_get by auto; reflexivity).
      rewrite G by auto. transitivity (sumf (R := Qc) d (fun k => rmul t (rmul (ent m i k) (vget a k)))).
      * unfold lapp. apply sumf_ext. intros k Hk. rewrite G by auto. cbn [rmul Qc_dom]. ring.
      * rewrite sumf_scale. pose proof (Ea i Hi) as Q. unfold lapp in Q. rewrite Q. cbn [rmul Qc_dom]. ring.
  - assert (G : forall (w : nat -> Qc) k, k < d -> vget (from_coordinates d w) k = w k) by (intros w k Hk; unfold vget; change r0 with 0%Qc; rewrite from_get by auto; reflexivity).
    assert (X : forall w, eigen d (ent m) (axis_sign d (ent m)) w -> eigenvector d m (axis_sign d (ent m)) (from_coordinates d w)).
    { intros w Ew. apply eigenvector_eigen; [apply from_length|]. intros i Hi. rewrite G by auto. rewrite <- Ew by auto. apply sumf_ext. intros k Hk. rewrite G by auto. auto. }
    destruct Sa as [Z|(w1 & w2 & E1 & E2 & I)]; [left|right].
    + intros v [Lv Ev]. apply (ext_lt d); auto; [apply from_length|]. intros k Hk. unfold origin. rewrite from_get by auto. change (vget v k = 0%Qc). apply (Z (vget v)); auto. apply eigenvector_eigen; auto. split; auto.
    + exists (from_coordinates d w1), (from_coordinates d w2). splits; auto. intros (x & y & N & H). apply N. apply I. intros i Hi.
      apply (f_equal (fun l => nth i l 0%Qc)) in H. unfold plus, multiple, origin, coordinate in H. rewrite !from_get in H by auto. exact H.
Qed.
(** A matrix of finite order has no axis exactly if it is a rotation of the plane, or the identity or the inversion of space. *)
Theorem C64_axis_finite d m o : 1 <= d <= 3 -> square_matrix d m -> details_from m = Ret o -> 0 < od_order o ->
  od_axis o = None <-> (d = 2 /\ od_preserving o = true) \/ (d = 3 /\ (is_identity 3 m \/ exists e, is_identity 3 e /\ mat_neg e = Ret m)).
Proof.
  intros Hd Sq E Pn. pose proof (square_mk d m Sq) as Em. destruct (details_ok d (ent m) Hd) as (ax & n & c & E' & On & Sa & _). rewrite <- Em in E'. rewrite E' in E. injection E as <-. cbn [od_axis od_preserving od_order] in *.
  rewrite (axis_none d (ent m) n Hd On Pn ax Sa). pose proof (finite_det d (ent m) n Hd Pn (order_pow d (ent m) n On Pn)) as D.
  assert (A : d = 2 /\ detd 2 (ent m) = 1%Qc <-> d = 2 /\ negb (q_neg (detd d (ent m))) = true).
  { split; intros [-> H]; split; auto; [rewrite H; reflexivity|]. destruct D as [D|D]; auto. rewrite D in H. discriminate H. }
  assert (B : d = 3 -> meq 3 (ent m) delta <-> is_identity 3 m). { intros ->. rewrite identity_is by lia. rewrite Em at 2. apply meq_mk. }
  assert (C : d = 3 -> meq 3 (ent m) (fun i j => - delta i j)%Qc <-> exists e, is_identity 3 e /\ mat_neg e = Ret m).
  { intros ->. rewrite meq_mk, <- Em. assert (Ng : mat_neg (mk 3 3 delta) = Ret (mk 3 3 (fun i j => - delta i j)%Qc)) by (vm_compute; reflexivity). split.
    - intros ->. exists (mk 3 3 delta). split; [apply identity_is; auto; lia|exact Ng].
    - intros (e & He & N). apply identity_is in He; [|lia]. subst e. rewrite Ng in N. injection N as <-. reflexivity. }
  rewrite A. split; (intros [H|[-> H]]; [left; auto|right; split; auto]); (destruct H as [H|H]; [left; apply (B eq_refl); auto|right; apply (C eq_refl); auto]).
Qed.
Print Assumptions C64_axis.
Print Assumptions C64_axis_finite.
Example C64_example :
  omap od_axis (details_from (qmat 3 [0; 0; -1; -1; 0; 0; 0; -1; 0]%Z)) = Ret (Some (map ZQ [1; 1; 1]%Z)) /\
  omap od_axis (details_from (qmat 2 [-1; 0; 1; 1]%Z)) = Ret (Some (map ZQ [0; 1]%Z)) /\
  omap od_axis (details_from (qmat 2 [0; -1; 1; 1]%Z)) = Ret None.
Proof. splits; vm_compute; reflexivity. Qed.

(** ** C65: the sense of rotation.  In the plane, a rotation of order 3, 4 or 6 is reported as clockwise if and only if the
    angle from every vector to its image is negative; in space, if and only if the axis, any vector not parallel to it and the
    image of that vector are a right handed system.  The answer does not depend on the vector. *)
Lemma area_turn m v : area2 v (image 2 m v) = turn2 (ent m) (vget v 0) (vget v 1).
Proof. unfold area2. rewrite !image_get by lia. unfold lapp. rewrite !sumf_2. cbn [rmul Qc_dom]. unfold turn2, area, coordinate, vget. cbn [r0 Qc_dom]. ring. Qed.
Lemma volume_vol m a v : volume3 a v (image 3 m v) = vol (lv3 a) (lv3 v) (app3 (of3 (ent m)) (lv3 v)).
Proof.
  unfold volume3. rewrite !image_get by lia. unfold lv3 at 3. rewrite app_of3. unfold vol, det3, cols3, lv3. cbn [vx vy vz c00 c01 c02 c10 c11 c12 c20 c21 c22]. unfold coordinate, vget. cbn [r0 Qc_dom].
  generalize (lapp 3 (ent m) (fun i => nth i v 0%Qc) 0) (lapp 3 (ent m) (fun i => nth i v 0%Qc) 1) (lapp 3 (ent m) (fun i => nth i v 0%Qc) 2). intros. ring.
Qed.
Theorem C65_sense_plane m o : square_matrix 2 m -> details_from m = Ret o -> 2 < od_order o -> od_preserving o = true ->
  forall v, point 2 v -> v <> origin 2 -> if od_clockwise o then (area2 v (image 2 m v) < 0)%Qc else (0 < area2 v (image 2 m v))%Qc.
Proof.
  intros Sq E Hn Pr v Lv Nv. pose proof (square_mk 2 m Sq) as Em. destruct (details_ok 2 (ent m) ltac:(lia)) as (ax & n & c & E' & On & Sa & _ & _ & S & _). rewrite <- Em in E'. rewrite E' in E. injection E as <-. cbn [od_axis od_preserving od_order od_clockwise] in *.
  rewrite area_turn. apply S; auto. intros [Z0 Z1]. apply Nv. destruct v as [|x [|y [|]]]; try discriminate Lv. cbn in Z0, Z1. rewrite Z0, Z1. reflexivity.
Qed.
Theorem C65_sense_space m o : square_matrix 3 m -> details_from m = Ret o -> 2 < od_order o ->
  exists a, od_axis o = Some a /\ forall v, point 3 v -> ~ parallel 3 a v ->
    if od_clockwise o then (0 < volume3 a v (image 3 m v))%Qc else (volume3 a v (image 3 m v) < 0)%Qc.
Proof.
  intros Sq E Hn. pose proof (C64_axis_finite 3 m o ltac:(lia) Sq E ltac:(lia)) as Ax. pose proof (square_mk 3 m Sq) as Em. destruct (details_ok 3 (ent m) ltac:(lia)) as (ax & n & c & E' & On & Sa & _ & _ & _ & S). rewrite <- Em in E'. rewrite E' in E. injection E as <-. cbn [od_axis od_preserving od_order od_clockwise] in *.
  destruct ax as [a|].
  - exists a. split; auto. intros v Lv Nv. rewrite volume_vol. apply S; auto. rewrite <- (parallel_dependent 3); auto. apply Sa.
  - exfalso. destruct Ax as [Ax _]. destruct (Ax eq_refl) as [[C _]|[_ C]]; [discriminate C|]. apply (not_square 3 (ent m) n On Hn). intros i j Hi Hj. cbn [powf].
    assert (exists s, (s * s)%Qc = 1%Qc /\ meq 3 (ent m) (fun i j => (s * delta i j)%Qc)) as (s & Ss & M).
    { destruct C as [C|(e & C & N)].
      - exists 1%Qc. split; [reflexivity|]. apply identity_is in C; [|lia]. rewrite C. intros i' j' Hi' Hj'. rewrite mk_ent by auto. ring.
      - exists (- (1))%Qc. split; [reflexivity|]. apply identity_is in C; [|lia]. subst e. assert (Ng : mat_neg (mk 3 3 delta) = Ret (mk 3 3 (fun i j => - delta i j)%Qc)) by (vm_compute; reflexivity). rewrite Ng in N. injection N as N.
        rewrite <- N. intros i' j' Hi' Hj'. change (Mat 3 3 ?l) with (mk 3 3 (fun i j => - delta i j)%Qc). rewrite mk_ent by auto. ring. }
    assert (M2 : meq 3 (lmul 3 (lmul 3 delta (ent m)) (ent m)) (lmul 3 (fun i j => (s * delta i j)%Qc) (fun i j => (s * delta i j)%Qc))).
    { apply meq_lmul; auto. eapply meq_trans; [|exact M]. intros i' j' Hi' Hj'. apply (lmul_delta_l (R := Qc)); auto. }
    rewrite M2 by auto. unfold lmul. rewrite sumf_3. cbn [rmul Qc_dom]. transitivity (s * s * (delta i 0%nat * delta 0%nat j + delta i 1%nat * delta 1%nat j + delta i 2%nat * delta 2%nat j))%Qc; [ring|]. rewrite Ss.
    assert (i = 0 \/ i = 1 \/ i = 2) as [-> | [-> | ->]] by lia; assert (j = 0 \/ j = 1 \/ j = 2) as [-> | [-> | ->]] by lia; vm_compute; reflexivity.
Qed.
(** the remaining cases: the field is true, except for matrices of the plane that reverse the orientation *)
Theorem C65_sense_other d m o : 1 <= d <= 3 -> square_matrix d m -> details_from m = Ret o ->
  (0 < od_order o <= 2 -> od_clockwise o = negb ((d =? 2) && negb (od_preserving o))) /\ (d = 2 -> od_preserving o = false -> od_clockwise o = false).
Proof.
  intros Hd Sq E. pose proof (square_mk d m Sq) as Em. destruct (details_ok d (ent m) Hd) as (ax & n & c & E' & On & Sa & S1 & S2 & _). rewrite <- Em in E'. rewrite E' in E. injection E as <-. cbn [od_axis od_preserving od_order od_clockwise] in *.
  split; auto. intros H. rewrite (S1 H). destruct (d =? 2), (negb (q_neg (detd d (ent m)))); reflexivity.
Qed.
Print Assumptions C65_sense_plane.
Print Assumptions C65_sense_space.
Print Assumptions C65_sense_other.

(** the inverse has the same order, and a rotation of order 3, 4 or 6 and its inverse turn in opposite senses *)
Lemma area_swap v w : area2 w v = (- area2 v w)%Qc. Proof. unfold area2. ring. Qed.
Lemma volume_swap a v w : volume3 a w v = (- volume3 a v w)%Qc. Proof. unfold volume3. ring. Qed.
Lemma volume_multiple t a v w : volume3 (multiple 3 t a) v w = (t * volume3 a v w)%Qc.
Proof. unfold volume3, multiple, coordinate. rewrite !from_get by lia. unfold coordinate. ring. Qed.
Lemma image_image d f g v : point d v -> image d (mk d d f) (image d (mk d d g) v) = image d (mk d d (lmul d f g)) v.
Proof.
  intros Lv. apply (ext_lt d); [apply from_length|apply from_length|]. intros k Hk. pose proof (image_get d (mk d d f) (image d (mk d d g) v) k Hk) as A. pose proof (image_get d (mk d d (lmul d f g)) v k Hk) as B. unfold coordinate in A, B. rewrite A, B.
  transitivity (lapp d f (lapp d g (vget v)) k).
  - unfold lapp at 1 2. apply sumf_ext. intros j Hj. rewrite mk_ent by auto. f_equal. pose proof (image_get d (mk d d g) v j Hj) as C. unfold coordinate in C. unfold vget at 1. change r0 with 0%Qc. rewrite C. unfold lapp. apply sumf_ext. intros i Hi. rewrite mk_ent by auto. auto.
  - rewrite <- (lapp_lmul (R := Qc)). unfold lapp. apply sumf_ext. intros j Hj. rewrite mk_ent by auto. auto.
Qed.
Lemma image_delta d v : point d v -> image d (mk d d delta) v = v.
Proof.
  intros Lv. apply (ext_lt d); [apply from_length|auto|]. intros k Hk. pose proof (image_get d (mk d d delta) v k Hk) as A. unfold coordinate in A. rewrite A.
  change (nth k v 0%Qc) with (vget v k). rewrite <- (lapp_delta (R := Qc) d (vget v) k Hk). unfold lapp. apply sumf_ext. intros j Hj. rewrite mk_ent by auto. auto.
Qed.
Lemma inverse_power d f g k : 1 <= d -> 0 < k -> meq d (powf d f k) delta -> meq d (lmul d f g) delta -> meq d g (powf d f (k - 1)) /\ meq d (lmul d g f) delta.
Proof.
  intros Hd Hk P I. assert (G : meq d g (powf d f (k - 1))).
  { apply meq_sym. intros i j Hi Hj. assert (A : meq d (lmul d (powf d f (k - 1)) (lmul d f g)) (powf d f (k - 1))).
    { eapply meq_trans; [apply meq_lmul; [apply meq_refl|exact I]|]. intros a b Ha Hb. apply (lmul_delta_r (R := Qc)); auto. }
    rewrite <- A by auto. rewrite <- (lmul_assoc (R := Qc)). change (lmul d (powf d f (k - 1)) f) with (powf d f (S (k - 1))). replace (S (k - 1)) with k by lia.
    transitivity (lmul d delta g i j); [apply (meq_lmul d); auto; apply meq_refl|]. apply (lmul_delta_l (R := Qc)); auto. }
  split; auto. eapply meq_trans; [apply meq_lmul; [exact G|apply meq_refl]|]. change (lmul d (powf d f (k - 1)) f) with (powf d f (S (k - 1))). replace (S (k - 1)) with k by lia. auto.
Qed.
Lemma powf_mul d f i j : 0 < d -> meq d (powf d f (i * j)) (powf d (powf d f i) j).
Proof.
  intros Hd. induction j as [|j IH]; [rewrite Nat.mul_0_r; apply meq_refl|]. rewrite Nat.mul_succ_r. cbn [powf]. eapply meq_trans; [apply powf_add|]. apply meq_lmul; auto. apply meq_refl.
Qed.
Lemma powf_meq d f g k : meq d f g -> meq d (powf d f k) (powf d g k).
Proof. intros H. induction k as [|k IH]; [apply meq_refl|]. cbn [powf]. apply meq_lmul; auto. Qed.
Lemma inverse_order d f g n n' : 1 <= d <= 3 -> is_order d f n -> 0 < n -> is_order d g n' -> meq d (lmul d f g) delta -> n' = n.
Proof.
  intros Hd On Hn On' I. pose proof (order_pow d f n On Hn) as P. destruct (inverse_power d f g n ltac:(lia) Hn P I) as [G GF].
  assert (K : forall k, Nat.divide n' k <-> Nat.divide n k).
  { intros k. rewrite <- (order_divides d g n' k) by (auto; lia). transitivity (meq d (powf d f ((n - 1) * k)) delta).
    - assert (Q : meq d (powf d g k) (powf d f ((n - 1) * k))) by (eapply meq_trans; [apply powf_meq; exact G|apply meq_sym; apply powf_mul; lia]). split; intros H; (eapply meq_trans; [|exact H]); auto. apply meq_sym. auto.
    - rewrite (order_divides d f n) by (auto; lia). split.
      + intros H. apply Nat.gauss with (m := n - 1); auto. destruct n as [|n]; [lia|]. replace (S n - 1) with n by lia. replace (S n) with (n + 1) by lia. rewrite Nat.gcd_comm, Nat.add_comm, Nat.gcd_add_diag_r.
        apply Nat.gcd_1_r.
      + apply Nat.divide_mul_r. }
  apply Nat.divide_antisym; [apply K; apply Nat.divide_refl|apply K; apply Nat.divide_refl].
Qed.

Lemma sign_bool (b c : bool) (x y : Qc) : (if b then (x < 0)%Qc else (0 < x)%Qc) -> (if c then (y < 0)%Qc else (0 < y)%Qc) -> (exists t, (0 < t)%Qc /\ y = (- (t * x))%Qc) -> c = negb b.
Proof.
  intros Hb Hc (t & Ht & E). destruct b, c; auto; exfalso; subst y.
  - assert ((t * x <= 0)%Qc) by qcnra. qclra.
  - assert ((0 <= t * x)%Qc) by qcnra. qclra.
Qed.
Theorem C65_inverse d m m' e o o' : 2 <= d <= 3 -> square_matrix d m -> square_matrix d m' -> is_identity d e -> mat_mul m m' = Ret e ->
  details_from m = Ret o -> details_from m' = Ret o' -> 0 < od_order o ->
  od_order o' = od_order o /\ od_preserving o' = od_preserving o /\
  (2 < od_order o -> d = 3 \/ od_preserving o = true -> od_clockwise o' = negb (od_clockwise o)).
Proof.
  intros Hd Sq Sq' He Mm Eo Eo' Hn. pose proof (square_mk d m Sq) as Em. pose proof (square_mk d m' Sq') as Em'. apply identity_is in He; [|lia]. subst e.
  assert (I : meq d (lmul d (ent m) (ent m')) delta). { rewrite Em, Em', mul_mk in Mm by lia. apply meq_mk. injection Mm as Mm. unfold mk. f_equal. exact Mm. }
  destruct (details_ok d (ent m) ltac:(lia)) as (ax & n & c & E & On & Sa & Sc). rewrite <- Em in E. rewrite E in Eo.
  destruct (details_ok d (ent m') ltac:(lia)) as (ax' & n' & c' & E' & On' & Sa' & Sc'). rewrite <- Em' in E'. rewrite E' in Eo'.
  assert (Hno : od_order o = n) by (injection Eo as <-; reflexivity). assert (Hpo : od_preserving o = negb (q_neg (detd d (ent m)))) by (injection Eo as <-; reflexivity). assert (Hco : od_clockwise o = c) by (injection Eo as <-; reflexivity). assert (Hao : od_axis o = ax) by (injection Eo as <-; reflexivity).
  assert (Hno' : od_order o' = n') by (injection Eo' as <-; reflexivity). assert (Hpo' : od_preserving o' = negb (q_neg (detd d (ent m')))) by (injection Eo' as <-; reflexivity). assert (Hco' : od_clockwise o' = c') by (injection Eo' as <-; reflexivity). assert (Hao' : od_axis o' = ax') by (injection Eo' as <-; reflexivity).
  rewrite Hno in Hn. pose proof (order_pow d (ent m) n On Hn) as P. destruct (inverse_power d (ent m) (ent m') n ltac:(lia) Hn P I) as [_ I'].
  assert (En : n' = n) by exact (inverse_order d (ent m) (ent m') n n' ltac:(lia) On Hn On' I).
  pose proof (finite_det d (ent m) n ltac:(lia) Hn P) as Dm.
  assert (Dd : detd d (ent m') = detd d (ent m)).
  { assert (Q : (detd d (ent m) * detd d (ent m'))%Qc = 1%Qc) by (rewrite <- detd_mul by lia; rewrite (detd_ext d _ delta ltac:(lia) I); apply detd_delta; lia).
    destruct Dm as [Q1|Q1]; rewrite Q1 in Q |- *; qclra. }
  assert (B : od_order o' = od_order o) by congruence. split; auto. assert (B2 : od_preserving o' = od_preserving o) by (rewrite Hpo, Hpo', Dd; auto). split; auto.
  intros H2 Hor. pose proof H2 as H2'. rewrite <- B in H2'.
  assert (V : forall v, point d v -> image d m (image d m' v) = v /\ image d m' (image d m v) = v).
  { intros v Lv. rewrite Em, Em'. split; rewrite image_image by auto; [rewrite (proj1 (meq_mk d _ _) I)|rewrite (proj1 (meq_mk d _ _) I')]; apply image_delta; auto. }
  assert (d = 2 \/ d = 3) as [-> | ->] by lia.
  - destruct Hor as [C|Pr]; [discriminate C|]. assert (Pr' : od_preserving o' = true) by congruence.
    set (v := [1; 0]%Qc). assert (Lv : point 2 v) by reflexivity. assert (Nv : v <> origin 2) by (intros C; discriminate C).
    set (w := image 2 m' v). destruct (V v Lv) as [V1 _]. fold w in V1. assert (Lw : point 2 w) by apply from_length.
    assert (Nw : w <> origin 2). { intros C. rewrite C in V1. apply Nv. rewrite <- V1. apply (ext_lt 2); try apply from_length. intros k Hk. pose proof (image_get 2 m (origin 2) k Hk) as A. unfold coordinate in A. rewrite A. unfold lapp. rewrite sumf_2. unfold vget. unfold origin. rewrite !from_get by lia. cbn [rmul Qc_dom]. ring. }
    pose proof (C65_sense_plane m o Sq ltac:(congruence) H2 Pr w Lw Nw) as S. pose proof (C65_sense_plane m' o' Sq' ltac:(congruence) H2' Pr' v Lv Nv) as S'. fold w in S'. rewrite V1 in S.
    apply (sign_bool _ _ _ _ S S'). exists 1%Qc. split; [reflexivity|]. rewrite (area_swap w v). ring.
  - destruct (C65_sense_space m o Sq ltac:(congruence) H2) as (a & Ha & S). destruct (C65_sense_space m' o' Sq' ltac:(congruence) H2') as (a' & Ha' & S').
    rewrite <- Hao, Ha in Sa. rewrite <- Hao', Ha' in Sa'. destruct Sa as (La & Pa & Ea & Ua). destruct Sa' as (La' & Pa' & Ea' & Ua').
    rewrite det_axis_sign in Ea, Ua by auto. rewrite det_axis_sign in Ea', Ua' by (rewrite Dd; auto). rewrite Dd in Ea', Ua'. set (e := detd 3 (ent m)) in *. assert (Ee : (e * e)%Qc = 1%Qc) by (destruct Dm as [-> | ->]; reflexivity).
    assert (T : exists t, (0 < t)%Qc /\ a = multiple 3 t a').
    { destruct (Ua' (vget a)) as (t & Ht).
      - assert (Q : eigenvector 3 m e a) by (apply eigenvector_eigen; auto). destruct Q as [_ Q]. apply eigenvector_eigen; auto. split; auto.
        assert (W : image 3 m' (multiple 3 e a) = a) by (rewrite <- Q; apply V; auto).
        assert (W2 : multiple 3 e (image 3 m' (multiple 3 e a)) = image 3 m' a).
        { apply (ext_lt 3); try apply from_length. intros k Hk. pose proof (image_get 3 m' a k Hk) as A. pose proof (image_get 3 m' (multiple 3 e a) k Hk) as A'. unfold coordinate in A, A'. rewrite A. unfold multiple at 1. rewrite from_get by auto. unfold coordinate. rewrite A'. unfold lapp. rewrite !sumf_3. unfold vget, multiple. rewrite !from_get by lia. cbn [rmul r0 Qc_dom]. unfold coordinate.
          transitivity (e * e * (ent m' k 0%nat * nth 0 a 0 + ent m' k 1%nat * nth 1 a 0 + ent m' k 2%nat * nth 2 a 0))%Qc; [ring|rewrite Ee; ring]. }
        rewrite <- W2, W. auto.
      - exists t. assert (Q : a = multiple 3 t a') by (apply (ext_lt 3); [auto|apply from_length|]; intros k Hk; unfold multiple, coordinate; rewrite from_get by auto; apply Ht; auto). split; auto. clear Q.
        destruct Pa as (k & Hk & Zk & Pk). destruct Pa' as (k' & Hk' & Zk' & Pk'). pose proof (Ht k Hk) as Tk. destruct (lt_eq_lt_dec k k') as [[L|L]|L].
        + exfalso. rewrite (Zk' k L) in Tk. rewrite Tk in Pk. apply (Qc_pos_nz _ Pk). ring.
        + subst k'. destruct (Qclt_le_dec 0%Qc t) as [|C]; auto. exfalso. rewrite Tk in Pk. assert ((t * vget a' k <= 0)%Qc) by qcnra. qclra.
        + exfalso. pose proof (Ht k' Hk') as Tk'. rewrite (Zk k' L) in Tk'. symmetry in Tk'. destruct (Qcmult_integral _ _ Tk') as [Z|Z]; [|apply (Qc_pos_nz _ Pk' Z)]. rewrite Z in Tk. rewrite Tk in Pk. apply (Qc_pos_nz _ Pk). ring. }
    destruct T as (t & Ht & Eaa).
    assert (exists v, point 3 v /\ ~ parallel 3 a' v) as (v & Lv & Nv).
    { destruct (collinear_ok a' [1; 0; 0]%Qc) as (b & _ & Hb); [rewrite La'; reflexivity|]. destruct b.
      - exists [0; 1; 0]%Qc. split; [reflexivity|]. rewrite parallel_dependent by (auto; reflexivity). apply u_not_both; auto; [|apply Hb; auto]. destruct (lead_nz _ _ Pa') as (i & _ & N); eauto.
      - exists [1; 0; 0]%Qc. split; [reflexivity|]. rewrite parallel_dependent by (auto; reflexivity). intros C. apply Hb in C. discriminate C. }
    set (w := image 3 m' v). assert (Lw : point 3 w) by apply from_length. destruct (V v Lv) as [V1 _]. fold w in V1.
    pose proof (S' v Lv Nv) as Sv. fold w in Sv.
    assert (Nw : ~ parallel 3 a w).
    { rewrite Eaa. intros C. assert (Z : volume3 a' v w = 0%Qc); [|destruct (od_clockwise o'); rewrite Z in Sv; revert Sv; clear; intros; discriminate || (exfalso; qclra)].
      apply (parallel_dependent 3 (multiple 3 t a') w (from_length _ _) Lw) in C. destruct C as (x & y & N & H).
      assert (G : forall k, k < 3 -> vget (multiple 3 t a') k = (t * vget a' k)%Qc) by (intros k Hk; unfold multiple, vget; change r0 with 0%Qc; rewrite from_get by auto; reflexivity).
      pose proof (H 0) as H0'. pose proof (H 1) as H1'. pose proof (H 2) as H2''. rewrite G in H0', H1', H2'' by lia.
      destruct (Qc_eq_dec y 0%Qc) as [Zy|Ny].
      - exfalso. subst y. assert (Nx : x <> 0%Qc) by tauto. destruct (lead_nz _ _ Pa') as (i & Hi & Ni). specialize (H i). rewrite G in H by auto. assert (Q : (x * (t * vget a' i))%Qc = 0%Qc) by (rewrite <- H; ring).
        destruct (Qcmult_integral _ _ Q) as [|Q2]; auto. destruct (Qcmult_integral _ _ Q2) as [Q3|]; auto. apply (Qc_pos_nz _ Ht Q3).
      - assert (Y : forall k, (x * (t * vget a' k) + y * vget w k)%Qc = 0%Qc -> vget w k = (- (x * t) / y * vget a' k)%Qc).
        { intros k Hk. apply (Qcmult_cancel y); auto. transitivity (x * (t * vget a' k) + y * vget w k - x * t * vget a' k)%Qc; [ring|]. rewrite Hk. field. auto. }
        apply Y in H0', H1', H2''. unfold vget in H0', H1', H2''. cbn [r0 Qc_dom] in H0', H1', H2''. unfold volume3, coordinate. rewrite H0', H1', H2''. ring. }
    pose proof (S w Lw Nw) as Sw. rewrite V1 in Sw. rewrite Eaa, volume_multiple, volume_swap in Sw.
    destruct (od_clockwise o), (od_clockwise o'); auto; exfalso; revert Sw Sv Ht; generalize (volume3 a' v w); clear; intros q Sw Sv Ht.
    + assert ((0 <= t * q)%Qc) by qcnra. qclra.
    + assert ((t * q <= 0)%Qc) by qcnra. qclra.
Qed.
Print Assumptions C65_inverse.
Example C65_example :
  omap od_clockwise (details_from (qmat 2 [0; 1; -1; 0]%Z)) = Ret true /\ omap od_clockwise (details_from (qmat 2 [0; -1; 1; 0]%Z)) = Ret false /\
  omap od_clockwise (details_from (qmat 3 [0; 0; 1; 1; 0; 0; 0; 1; 0]%Z)) = Ret true /\ omap od_clockwise (details_from (qmat 3 [0; 1; 0; 0; 0; 1; 1; 0; 0]%Z)) = Ret false /\
  mat_mul (qmat 3 [0; 0; 1; 1; 0; 0; 0; 1; 0]%Z) (qmat 3 [0; 1; 0; 0; 0; 1; 1; 0; 0]%Z) = identity 3.
Proof. splits; vm_compute; reflexivity. Qed.
