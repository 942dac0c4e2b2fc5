(** Lattices of the plane with a symmetry, for normalized_basis_2d (finder.rs). *)
From Coq Require Import List ZArith Lia Bool PeanoNat QArith Qcanon.
From Verif Require Import Base QcTac Scalars ZQ Reduce Rotation Details Sense Plane.
Import ListNotations.
Close Scope Q_scope. Close Scope Qc_scope.
Open Scope nat_scope.

Definition comb2 (a : Z) (u : v2) (b : Z) (w : v2) : v2 := V2 (ZQ a * wx u + ZQ b * wx w)%Qc (ZQ a * wy u + ZQ b * wy w)%Qc.
Definition lat2 (u w x : v2) : Prop := exists a b, x = comb2 a u b w.
Definition sq (v : v2) : Qc := (wx v * wx v + wy v * wy v)%Qc.
Definition dt (v w : v2) : Qc := (wx v * wx w + wy v * wy w)%Qc.
Record red2 (u w : v2) : Prop := {
  r_ind : ar u w <> 0%Qc;
  r_min0 : forall y, lat2 u w y -> y <> zv2 -> (sq u <= sq y)%Qc;
  r_min1 : forall y, lat2 u w y -> ar u y <> 0%Qc -> (sq w <= sq y)%Qc }.
Ltac v2ring := apply v2_eq; unfold comb2, neg_v, zv2 in *; cbn [wx wy] in *; repeat rewrite ?ZQ_add, ?ZQ_mul, ?ZQ_opp; try change (ZQ 0) with 0%Qc; try change (ZQ 1) with 1%Qc; try change (ZQ 2) with (1 + 1)%Qc; try change (ZQ (-1)) with (- (1))%Qc; ring.
Lemma Qc_mul_nonneg (a b : Qc) : (0 <= a)%Qc -> (0 <= b)%Qc -> (0 <= a * b)%Qc.
Proof. intros A B. rewrite <- (Qcmult_0_l b). apply Qcmult_le_compat_r; auto. Qed.
Lemma lat2_l u w : lat2 u w u. Proof. exists 1%Z, 0%Z. v2ring. Qed.
Lemma lat2_r u w : lat2 u w w. Proof. exists 0%Z, 1%Z. v2ring. Qed.
Lemma lat2_comb u w x y a b : lat2 u w x -> lat2 u w y -> lat2 u w (comb2 a x b y).
Proof. intros (c & d & ->) (e & f & ->). exists (a * c + b * e)%Z, (a * d + b * f)%Z. v2ring. Qed.
Lemma lat2_sub u w u' w' : lat2 u w u' -> lat2 u w w' -> forall x, lat2 u' w' x -> lat2 u w x.
Proof. intros Hu Hw x (a & b & ->). apply lat2_comb; auto. Qed.
Lemma lat2_same u w u' w' : lat2 u w u' -> lat2 u w w' -> lat2 u' w' u -> lat2 u' w' w -> forall x, lat2 u w x <-> lat2 u' w' x.
Proof. intros. split; apply lat2_sub; auto. Qed.
Lemma ZQ_abs1 b : b <> 0%Z -> (b * b <= 1)%Z -> b = 1%Z \/ b = (-1)%Z. Proof. nia. Qed.
Lemma ar_comb u w a b : ar u (comb2 a u b w) = (ZQ b * ar u w)%Qc. Proof. unfold ar, comb2. cbn [wx wy]. ring. Qed.
Lemma ar_zero u : ar u zv2 = 0%Qc. Proof. unfold ar, zv2. cbn [wx wy]. ring. Qed.
(** a vector as long as the first and independent of it completes it to a basis *)
Lemma same_length_basis u w y : red2 u w -> lat2 u w y -> sq y = sq u -> ar u y <> 0%Qc -> forall x, lat2 u w x <-> lat2 u y x.
Proof.
  intros R Ly Sy Ny. pose proof Ly as (a & b & Ey).
  assert (W1 : (sq w <= sq u)%Qc) by (rewrite <- Sy; apply (r_min1 u w R); auto).
  assert (P : (sq w <= sq (comb2 1 u 1 w))%Qc). { apply (r_min1 u w R); [exists 1%Z, 1%Z; auto|]. rewrite ar_comb. change (ZQ 1) with 1%Qc. rewrite Qcmult_1_l. apply (r_ind u w R). }
  assert (M : (sq w <= sq (comb2 1 u (-1) w))%Qc). { apply (r_min1 u w R); [exists 1%Z, (-1)%Z; auto|]. rewrite ar_comb. change (ZQ (-1)) with (- (1))%Qc. intros C. apply (r_ind u w R). transitivity (- (- (1) * ar u w))%Qc; [ring|]. rewrite C. reflexivity. }
  assert (EP : sq (comb2 1 u 1 w) = (sq u + (1 + 1) * dt u w + sq w)%Qc) by (unfold sq, dt, comb2; cbn [wx wy]; change (ZQ 1) with 1%Qc; ring).
  assert (EM : sq (comb2 1 u (-1) w) = (sq u - (1 + 1) * dt u w + sq w)%Qc) by (unfold sq, dt, comb2; cbn [wx wy]; change (ZQ 1) with 1%Qc; change (ZQ (-1)) with (- (1))%Qc; ring).
  rewrite EP in P. rewrite EM in M. clear EP EM.
  assert (W2 : (sq u <= sq w)%Qc). { apply (r_min0 u w R); [apply lat2_r|]. intros C. apply (r_ind u w R). rewrite C. apply ar_zero. }
  assert (D1 : (ar u w * ar u w)%Qc = (sq u * sq w - dt u w * dt u w)%Qc) by (unfold ar, sq, dt; ring).
  assert (D2 : (ar u y * ar u y)%Qc = (sq u * sq y - dt u y * dt u y)%Qc) by (unfold ar, sq, dt; ring).
  assert (B : ar u y = (ZQ b * ar u w)%Qc) by (rewrite Ey; apply ar_comb).
  assert (Nb : b <> 0%Z) by (intros ->; apply Ny; rewrite B; change (ZQ 0) with 0%Qc; ring).
  assert (Nu : (0 < sq u)%Qc). { assert (u <> zv2) by (intros C; apply (r_ind u w R); rewrite C; unfold ar, zv2; cbn [wx wy]; ring). destruct (eu_pos u) as [_ H2]. apply H2. auto. }
  assert (Hb : (b * b <= 1)%Z).
  { destruct (Z_le_gt_dec (b * b) 1) as [|C]; auto. exfalso. assert (C' : (ZQ 2 <= ZQ (b * b))%Qc) by (apply ZQ_le; lia). rewrite ZQ_mul in C'. change (ZQ 2) with (1 + 1)%Qc in C'.
    assert (Q : (ZQ b * ZQ b * (ar u w * ar u w))%Qc = (ar u y * ar u y)%Qc) by (rewrite B; ring). rewrite D1, D2, Sy in Q.
    assert (Ew : sq w = sq u) by (apply Qcle_antisym; auto). rewrite Ew in *.
    revert Q C' P M Nu. generalize (ZQ b * ZQ b)%Qc (sq u) (dt u w) (dt u y). clear. intros k n d e Q C' P M Nu.
    assert (H1 : (0 <= (n - (1 + 1) * d) * (n + (1 + 1) * d))%Qc) by (apply Qc_mul_nonneg; qclra).
    assert (H2 : (0 < n * n)%Qc) by (apply Qc_mul_pos; auto). pose proof (Qc_sq_nonneg e) as H3. pose proof (Qc_sq_nonneg d) as H3'.
    assert (K : ((n - (1 + 1) * d) * (n + (1 + 1) * d))%Qc = (n * n - (1 + 1) * (1 + 1) * (d * d))%Qc) by ring. rewrite K in H1.
    revert Q H1 H2 H3 H3'. generalize (n * n)%Qc (d * d)%Qc (e * e)%Qc. intros N D E Q H1 H2 H3 H3'.
    assert (F : (0 <= N - D)%Qc) by qclra. assert (H4 : (0 <= (k - (1 + 1)) * (N - D))%Qc) by (apply Qc_mul_nonneg; auto; qclra).
    assert (H5 : (k * (N - D))%Qc = ((k - (1 + 1)) * (N - D) + (1 + 1) * (N - D))%Qc) by ring. rewrite H5 in Q. revert H4 Q. generalize ((k - (1 + 1)) * (N - D))%Qc. intros. qclra. }
  destruct (ZQ_abs1 b Nb Hb) as [-> | ->]; apply lat2_same; auto; try apply lat2_l.
  - exists (- a)%Z, 1%Z. rewrite Ey. v2ring.
  - exists a, (-1)%Z. rewrite Ey. v2ring.
Qed.

Definition rot (v : v2) : v2 := V2 (- wy v)%Qc (wx v).
Definition mir (v : v2) : v2 := V2 (- wx v)%Qc (wy v).
Lemma sq_pos u : u <> zv2 -> (0 < sq u)%Qc. Proof. intros N. destruct (eu_pos u) as [_ H2]. apply H2. auto. Qed.
Lemma red_nz u w : red2 u w -> u <> zv2 /\ w <> zv2.
Proof. intros R. split; intros C; apply (r_ind u w R); rewrite C; unfold ar, zv2; cbn [wx wy]; ring. Qed.
Lemma square_ok u w : red2 u w -> (forall x, lat2 u w x -> lat2 u w (rot x)) -> forall x, lat2 u w x <-> lat2 u (rot u) x.
Proof.
  intros R I. apply same_length_basis; auto.
  - apply I. apply lat2_l.
  - unfold sq, rot. cbn [wx wy]. ring.
  - replace (ar u (rot u)) with (sq u) by (unfold ar, rot, sq; cbn [wx wy]; ring). apply Qc_pos_nz. apply sq_pos. apply (red_nz u w R).
Qed.
Lemma Qc_eq_le (x y : Qc) : x = y -> (x <= y)%Qc. Proof. intros ->. apply Qcle_refl. Qed.
Lemma Qc_two : (1 + 1)%Qc <> 0%Qc. Proof. intros C. discriminate C. Qed.
Lemma rect_first u w : red2 u w -> (forall x, lat2 u w x -> lat2 u w (mir x)) -> wx u <> 0%Qc -> wy u <> 0%Qc -> forall x, lat2 u w x <-> lat2 u (mir u) x.
Proof.
  intros R I Nx Ny. apply same_length_basis; auto.
  - apply I. apply lat2_l.
  - unfold sq, mir. cbn [wx wy]. ring.
  - replace (ar u (mir u)) with ((1 + 1) * (wx u * wy u))%Qc by (unfold ar, mir; cbn [wx wy]; ring). intros C. destruct (Qcmult_integral _ _ C) as [H|H]; [apply (Qc_two H)|]. destruct (Qcmult_integral _ _ H); auto.
Qed.
(** |r| <= |r + p| and |r| <= |r - p| with 2 r = a p and r <> 0: a is 1 or -1 *)
Lemma half_coeff (p r s : Qc) (a : Z) : (s + r * r <= s + (r + p) * (r + p))%Qc -> (s + r * r <= s + (r - p) * (r - p))%Qc -> ((1 + 1) * r)%Qc = (ZQ a * p)%Qc -> p <> 0%Qc -> r <> 0%Qc -> a = 1%Z \/ a = (-1)%Z.
Proof.
  intros H1 H2 E Np Nr. assert (Na : a <> 0%Z) by (intros ->; change (ZQ 0) with 0%Qc in E; rewrite Qcmult_0_l in E; destruct (Qcmult_integral _ _ E) as [C|C]; [apply (Qc_two C)|contradiction]).
  apply ZQ_abs1; auto. destruct (Z_le_gt_dec (a * a) 1) as [|C]; auto. exfalso.
  assert (Pp : (0 < p * p)%Qc) by (destruct (Qc_dec p 0%Qc) as [[N|N]|N]; [|apply Qc_mul_pos; auto|contradiction]; replace (p * p)%Qc with ((- p) * (- p))%Qc by ring; apply Qc_mul_pos; qclra).
  assert (F : exists b, (b = a \/ b = - a)%Z /\ (2 <= b)%Z) by (destruct (Z_le_gt_dec 0 a); [exists a|exists (- a)%Z]; nia). destruct F as (b & Hb & Lb). assert (Qb : (1 + 1 <= ZQ b)%Qc) by (change (1 + 1)%Qc with (ZQ 2); apply ZQ_le; auto).
  assert (K1 : ((1 + 1) * r * p)%Qc = (ZQ a * (p * p))%Qc) by (rewrite E; ring).
  assert (G1 : (0 <= (1 + 1) * r * p + p * p)%Qc) by (assert (X : ((r + p) * (r + p))%Qc = (r * r + ((1 + 1) * r * p + p * p))%Qc) by ring; rewrite X in H1; revert H1; generalize ((1 + 1) * r * p)%Qc (p * p)%Qc (r * r)%Qc; clear; intros; qclra).
  assert (G2 : (0 <= - ((1 + 1) * r * p) + p * p)%Qc) by (assert (X : ((r - p) * (r - p))%Qc = (r * r + (- ((1 + 1) * r * p) + p * p))%Qc) by ring; rewrite X in H2; revert H2; generalize ((1 + 1) * r * p)%Qc (p * p)%Qc (r * r)%Qc; clear; intros; qclra).
  rewrite K1 in G1, G2.
  assert (G : (0 <= p * p - ZQ b * (p * p))%Qc) by (destruct Hb as [-> | ->]; [|rewrite ZQ_opp]; revert G1 G2; generalize (p * p)%Qc (ZQ a); clear; intros; [replace (q - q0 * q)%Qc with (- (q0 * q) + q)%Qc by ring|replace (q - - q0 * q)%Qc with (q0 * q + q)%Qc by ring]; auto).
  assert (L : (0 <= (ZQ b - (1 + 1)) * (p * p))%Qc) by (apply Qc_mul_nonneg; qclra).
  revert G L Pp. assert (X : ((ZQ b - (1 + 1)) * (p * p))%Qc = (ZQ b * (p * p) - (1 + 1) * (p * p))%Qc) by ring. rewrite X. generalize (p * p)%Qc. intros q. generalize (ZQ b * q)%Qc. clear. intros. qclra.
Qed.
Lemma rect_second u w : red2 u w -> (forall x, lat2 u w x -> lat2 u w (mir x)) -> (wx u = 0%Qc \/ wy u = 0%Qc) -> wx w <> 0%Qc -> wy w <> 0%Qc -> forall x, lat2 u w x <-> lat2 w (mir w) x.
Proof.
  intros R I Ax Nx Ny. destruct (I w (lat2_r u w)) as (a & b & E). pose proof (f_equal wx E) as E1. pose proof (f_equal wy E) as E2. cbn [mir comb2 wx wy] in E1, E2. pose proof (r_ind u w R) as D.
  assert (P : (sq w <= sq (comb2 1 u 1 w))%Qc). { apply (r_min1 u w R); [exists 1%Z, 1%Z; auto|]. rewrite ar_comb. change (ZQ 1) with 1%Qc. rewrite Qcmult_1_l. auto. }
  assert (M : (sq w <= sq (comb2 (-1) u 1 w))%Qc). { apply (r_min1 u w R); [exists (-1)%Z, 1%Z; auto|]. rewrite ar_comb. change (ZQ 1) with 1%Qc. rewrite Qcmult_1_l. auto. }
  unfold sq, comb2 in P, M. cbn [wx wy] in P, M. change (ZQ 1) with 1%Qc in *. change (ZQ (-1)) with (- (1))%Qc in *.
  destruct Ax as [Z|Z].
  - (* u on the y axis *) assert (Nu : wy u <> 0%Qc) by (intros C; apply D; unfold ar; rewrite Z, C; ring). rewrite Z in E1, P, M.
    assert (Hb : b = (-1)%Z). { apply ZQ_inj. change (ZQ (-1)) with (- (1))%Qc. apply (Qcmult_cancel (wx w)); auto. transitivity (ZQ a * 0 + ZQ b * wx w)%Qc; [ring|]. rewrite <- E1. ring. } subst b. change (ZQ (-1)) with (- (1))%Qc in E2.
    assert (Ha : a = 1%Z \/ a = (-1)%Z).
    { apply (half_coeff (wy u) (wy w) (wx w * wx w)%Qc); auto.
      - eapply Qcle_trans; [exact P|]. apply Qc_eq_le. ring.
      - eapply Qcle_trans; [exact M|]. apply Qc_eq_le. ring.
      - transitivity (wy w + wy w)%Qc; [ring|]. rewrite E2 at 1. ring. }
    apply lat2_same; [apply lat2_r|apply I; apply lat2_r| |apply lat2_l]. destruct Ha as [-> | ->].
    + exists 1%Z, 1%Z. change (ZQ 1) with 1%Qc in E2. apply v2_eq; cbn [comb2 mir wx wy]; change (ZQ 1) with 1%Qc; [rewrite Z; ring|]. rewrite E2 at 2. ring.
    + exists (-1)%Z, (-1)%Z. change (ZQ (-1)) with (- (1))%Qc in E2. apply v2_eq; cbn [comb2 mir wx wy]; change (ZQ (-1)) with (- (1))%Qc; [rewrite Z; ring|]. rewrite E2 at 2. ring.
  - (* u on the x axis *) assert (Nu : wx u <> 0%Qc) by (intros C; apply D; unfold ar; rewrite Z, C; ring). rewrite Z in E2, P, M.
    assert (Hb : b = 1%Z). { apply ZQ_inj. change (ZQ 1) with 1%Qc. apply (Qcmult_cancel (wy w)); auto. transitivity (ZQ a * 0 + ZQ b * wy w)%Qc; [ring|]. rewrite <- E2. ring. } subst b. change (ZQ 1) with 1%Qc in E1.
    assert (Ha : (- a)%Z = 1%Z \/ (- a)%Z = (-1)%Z).
    { apply (half_coeff (wx u) (wx w) (wy w * wy w)%Qc); auto.
      - replace (wy w * wy w + wx w * wx w)%Qc with (wx w * wx w + wy w * wy w)%Qc by ring. eapply Qcle_trans; [exact P|]. apply Qc_eq_le. ring.
      - replace (wy w * wy w + wx w * wx w)%Qc with (wx w * wx w + wy w * wy w)%Qc by ring. eapply Qcle_trans; [exact M|]. apply Qc_eq_le. ring.
      - rewrite ZQ_opp. transitivity (wx w - - wx w)%Qc; [ring|]. rewrite E1. ring. }
    apply lat2_same; [apply lat2_r|apply I; apply lat2_r| |apply lat2_l]. destruct Ha as [Ha|Ha].
    + assert (a = (-1)%Z) as -> by lia. exists 1%Z, (-1)%Z. change (ZQ (-1)) with (- (1))%Qc in *. apply v2_eq; cbn [comb2 mir wx wy]; change (ZQ 1) with 1%Qc; change (ZQ (-1)) with (- (1))%Qc; [|rewrite Z; ring]. rewrite E1. ring.
    + assert (a = 1%Z) as -> by lia. exists (-1)%Z, 1%Z. change (ZQ 1) with 1%Qc in *. apply v2_eq; cbn [comb2 mir wx wy]; change (ZQ 1) with 1%Qc; change (ZQ (-1)) with (- (1))%Qc; [|rewrite Z; ring]. rewrite E1. ring.
Qed.
Definition cy (v : v2) : v2 := V2 0%Qc ((1 + 1) * wy v)%Qc.
Definition cx (v : v2) : v2 := V2 ((1 + 1) * wx v)%Qc 0%Qc.
Definition sub2 (v w : v2) : v2 := V2 (wx v - wx w)%Qc (wy v - wy w)%Qc.
Lemma centred_ok v x : lat2 v (mir v) x <-> lat2 (cy v) (cx v) x \/ lat2 (cy v) (cx v) (sub2 x v).
Proof.
  assert (T : forall z, ZQ (2 * z) = ((1 + 1) * ZQ z)%Qc) by (intros z; rewrite ZQ_mul; reflexivity).
  split.
  - intros (a & b & ->). destruct (Z.Even_or_Odd (a + b)) as [(m & Hm)|(m & Hm)]; [left|right].
    + exists m, (a - m)%Z. assert (b = 2 * m - a)%Z as -> by lia. unfold Z.sub. apply v2_eq; cbn [comb2 cy cx mir wx wy]; rewrite ?ZQ_add, ?ZQ_opp, ?T; ring.
    + exists m, (a - m - 1)%Z. assert (b = 2 * m + 1 - a)%Z as -> by lia. unfold Z.sub. apply v2_eq; cbn [comb2 cy cx mir sub2 wx wy]; rewrite ?ZQ_add, ?ZQ_opp, ?T; change (ZQ 1) with 1%Qc; ring.
  - assert (K : forall m n, comb2 m (cy v) n (cx v) = comb2 (m + n) v (m + - n) (mir v)) by (intros; apply v2_eq; cbn [comb2 cy cx mir wx wy]; rewrite ?ZQ_add, ?ZQ_opp; ring).
    intros [(m & n & ->)|(m & n & E)]; [rewrite K; exists (m + n)%Z, (m + - n)%Z; auto|]. rewrite K in E. exists (m + n + 1)%Z, (m + - n)%Z.
    pose proof (f_equal wx E) as E1. pose proof (f_equal wy E) as E2. cbn [sub2 comb2 mir wx wy] in E1, E2.
    apply v2_eq; cbn [comb2 mir wx wy]; rewrite ?(ZQ_add (m + n) 1); change (ZQ 1) with 1%Qc; [transitivity (wx x - wx v + wx v)%Qc; [ring|rewrite E1; ring]|transitivity (wy x - wy v + wy v)%Qc; [ring|rewrite E2; ring]].
Qed.
(** the turn of order 3 in coordinates of two vectors at 120 degrees *)
Definition third (v : v2) : v2 := V2 (- wy v)%Qc (wx v - wy v)%Qc.
Lemma third_ar u : ar u (third u) = (wx u * wx u - wx u * wy u + wy u * wy u)%Qc.
Proof. unfold ar, third. cbn [wx wy]. ring. Qed.
Lemma third_ok u w : red2 u w -> (forall x, lat2 u w x -> lat2 u w (third x)) -> ar u (third u) <> 0%Qc /\ forall x, lat2 u w x <-> lat2 u (third u) x.
Proof.
  intros R I. pose proof (I u (lat2_l u w)) as Ly. pose proof Ly as (a & b & Ey).
  assert (Nu : (0 < sq u)%Qc) by (apply sq_pos; apply (red_nz u w R)).
  assert (W2 : (sq u <= sq w)%Qc) by (apply (r_min0 u w R); [apply lat2_r|apply (red_nz u w R)]).
  assert (P : (sq w <= sq (comb2 1 u 1 w))%Qc). { apply (r_min1 u w R); [exists 1%Z, 1%Z; auto|]. rewrite ar_comb. change (ZQ 1) with 1%Qc. rewrite Qcmult_1_l. apply (r_ind u w R). }
  assert (M : (sq w <= sq (comb2 1 u (-1) w))%Qc). { apply (r_min1 u w R); [exists 1%Z, (-1)%Z; auto|]. rewrite ar_comb. change (ZQ (-1)) with (- (1))%Qc. intros C. apply (r_ind u w R). transitivity (- (- (1) * ar u w))%Qc; [ring|]. rewrite C. reflexivity. }
  assert (EP : sq (comb2 1 u 1 w) = (sq u + (1 + 1) * dt u w + sq w)%Qc) by (unfold sq, dt, comb2; cbn [wx wy]; change (ZQ 1) with 1%Qc; ring).
  assert (EM : sq (comb2 1 u (-1) w) = (sq u - (1 + 1) * dt u w + sq w)%Qc) by (unfold sq, dt, comb2; cbn [wx wy]; change (ZQ 1) with 1%Qc; change (ZQ (-1)) with (- (1))%Qc; ring).
  rewrite EP in P. rewrite EM in M. clear EP EM.
  assert (D1 : (ar u w * ar u w)%Qc = (sq u * sq w - dt u w * dt u w)%Qc) by (unfold ar, sq, dt; ring).
  assert (B : ar u (third u) = (ZQ b * ar u w)%Qc) by (rewrite Ey; apply ar_comb).
  assert (L1 : (sq u <= (1 + 1) * ar u (third u))%Qc). { rewrite third_ar. unfold sq. pose proof (Qc_sq_nonneg (wx u - wy u)) as S. assert (X : ((wx u - wy u) * (wx u - wy u))%Qc = (wx u * wx u - (1 + 1) * (wx u * wy u) + wy u * wy u)%Qc) by ring. rewrite X in S. revert S. generalize (wx u * wx u)%Qc (wx u * wy u)%Qc (wy u * wy u)%Qc. clear. intros. qclra. }
  assert (L2 : ((1 + 1) * ar u (third u) <= (1 + 1 + 1) * sq u)%Qc). { rewrite third_ar. unfold sq. pose proof (Qc_sq_nonneg (wx u + wy u)) as S. assert (X : ((wx u + wy u) * (wx u + wy u))%Qc = (wx u * wx u + (1 + 1) * (wx u * wy u) + wy u * wy u)%Qc) by ring. rewrite X in S. revert S. generalize (wx u * wx u)%Qc (wx u * wy u)%Qc (wy u * wy u)%Qc. clear. intros. qclra. }
  assert (Ny : ar u (third u) <> 0%Qc) by (apply Qc_pos_nz; qclra). split; auto.
  assert (Nb : b <> 0%Z) by (intros ->; apply Ny; rewrite B; change (ZQ 0) with 0%Qc; ring).
  assert (Hb : (b * b <= 1)%Z).
  { destruct (Z_le_gt_dec (b * b) 1) as [|C]; auto. exfalso. assert (C2 : (4 <= b * b)%Z) by (assert (b <> 1 /\ b <> -1)%Z by (split; intros ->; lia); assert (b <= -2 \/ 2 <= b)%Z by lia; nia). assert (C' : (ZQ 4 <= ZQ (b * b))%Qc) by (apply ZQ_le; lia). rewrite ZQ_mul in C'. change (ZQ 4) with (1 + 1 + 1 + 1)%Qc in C'.
    assert (Q : (ZQ b * ZQ b * (ar u w * ar u w))%Qc = (ar u (third u) * ar u (third u))%Qc) by (rewrite B; ring). rewrite D1 in Q.
    revert Q C' P M Nu W2 L1 L2. generalize (ZQ b * ZQ b)%Qc (sq u) (sq w) (dt u w) (ar u (third u)). clear. intros k n m d e Q C' P M Nu W2 L1 L2.
    assert (H1 : (0 <= (n - (1 + 1) * d) * (n + (1 + 1) * d))%Qc) by (apply Qc_mul_nonneg; qclra).
    assert (H2 : (0 < n * n)%Qc) by (apply Qc_mul_pos; auto).
    assert (H3 : (0 <= n * (m - n))%Qc) by (apply Qc_mul_nonneg; qclra).
    assert (H6 : (0 <= ((1 + 1 + 1) * n - (1 + 1) * e) * ((1 + 1 + 1) * n + (1 + 1) * e))%Qc) by (apply Qc_mul_nonneg; qclra).
    assert (K : ((n - (1 + 1) * d) * (n + (1 + 1) * d))%Qc = (n * n - (1 + 1) * (1 + 1) * (d * d))%Qc) by ring. rewrite K in H1.
    assert (K2 : (n * (m - n))%Qc = (n * m - n * n)%Qc) by ring. rewrite K2 in H3.
    assert (K3 : (((1 + 1 + 1) * n - (1 + 1) * e) * ((1 + 1 + 1) * n + (1 + 1) * e))%Qc = ((1 + 1 + 1) * (1 + 1 + 1) * (n * n) - (1 + 1) * (1 + 1) * (e * e))%Qc) by ring. rewrite K3 in H6.
    revert Q H1 H2 H3 H6. generalize (n * n)%Qc (n * m)%Qc (d * d)%Qc (e * e)%Qc. intros N NM D E Q H1 H2 H3 H6.
    assert (H4 : (0 <= (k - (1 + 1 + 1 + 1)) * (NM - D))%Qc) by (apply Qc_mul_nonneg; qclra).
    assert (H5 : (k * (NM - D))%Qc = ((k - (1 + 1 + 1 + 1)) * (NM - D) + (1 + 1 + 1 + 1) * (NM - D))%Qc) by ring. rewrite H5 in Q. revert H4 Q. generalize ((k - (1 + 1 + 1 + 1)) * (NM - D))%Qc. intros. qclra. }
  destruct (ZQ_abs1 b Nb Hb) as [-> | ->]; apply lat2_same; auto; try apply lat2_l.
  - exists (- a)%Z, 1%Z. rewrite Ey. v2ring.
  - exists a, (-1)%Z. rewrite Ey. v2ring.
Qed.
